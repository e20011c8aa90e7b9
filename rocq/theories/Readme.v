(** The program of Readme.md:30-88: a long array of records, imported one by one (C52). *)

From Verif Require Import Spec Model Infra Total Safe Refine Main Api ApiProofs History ApiFacts Outcome Access Json Grammar Docs24.
From Coq Require Import Permutation.
Local Open Scope string_scope.
Set Implicit Arguments.

(** ** The declaration, Readme.md:60-63; the callback of the object is number 0 *)
Definition readme_row : schema :=
  SObj OPlain
    [(mkM (SStr "string") false None, SVal TyStr None);
     (mkM (SStr "integer") true (Some (VSc (SInt 0))), SVal TyInt None);
     (mkM (SStr "array") false None, SArr true (SVal TyStr None) None)] false (Some 0).

Definition readme : schema := SArr false readme_row None.

(** ** The data: what the text says, and what DB.writeObject() is to get *)
Record row := mkRow { r_string : string; r_integer : option Z; r_array : list string }.

Definition jstr (s : string) : json := JSc (SStr s).

Definition row_members (r : row) : list (string * json) :=
  (("string", jstr (r_string r)) ::
   match r_integer r with Some z => [("integer", JSc (SInt z))] | None => [] end ++
   [("array", JArr (map jstr (r_array r)))])%list.

(** The members of a record may come in any order. *)
Definition row_json (r : row) (j : json) : Prop := exists kvs, j = JObj kvs /\ Permutation (row_members r) kvs.

(** The callback gets an object parser that looks like [w]; what pop<0>(), get<1>() and
    pop<2>() return, Readme.md:69-79. *)
Definition written (r : row) (w : view) : Prop :=
  forall p, schema_of p = readme_row -> view_of p = w ->
  let (x0, p1) := pop_nth 0 p in
  x0 = GVal (VSc (SStr (r_string r))) /\
  get_nth 1 p1 = GVal (VSc (SInt (match r_integer r with Some z => z | None => 0%Z end))) /\
  fst (pop_nth 2 p1) = GVal (VVec (map (fun s => VSc (SStr s)) (r_array r))).

(** ** Proof *)
Definition val_view (v : value) : view := View true false (Some v) 0 [].

Definition row_view (r : row) : view :=
  View true false None 0
    [val_view (VSc (SStr (r_string r)));
     match r_integer r with Some z => val_view (VSc (SInt z)) | None => View false true None 0 [] end;
     View true (match r_array r with [] => true | _ => false end) (Some (VVec (map (fun s => VSc (SStr s)) (r_array r)))) 0 []].

Lemma strings_elems P l l0 : (forall s, p_store P (VSc (SStr s)) = None) -> forall emp vals,
  elems P (den P) true (SVal TyStr None) None (map jstr l) emp vals l0 =
  (l0, inr (View true (emp && match l with [] => true | _ => false end)
                 (Some (VVec (vals ++ map (fun s => VSc (SStr s)) l)%list)) 0 [])).
Proof.
  intros Hp. induction l as [|s l IH]; intros emp vals.
  - cbn [map elems end_array invoke]. rewrite app_nil_r, andb_true_r. reflexivity.
  - cbn [map elems jstr den ty_of vtype_eqb end_value invoke andthen v_val]. unfold storing. rewrite Hp. cbn [andthen].
    rewrite IH, <- app_assoc, andb_false_r. reflexivity.
Qed.

Lemma row_orders r kvs : Permutation (row_members r) kvs ->
  let s := ("string", jstr (r_string r)) in
  let a := ("array", JArr (map jstr (r_array r))) in
  match r_integer r with
  | Some z => let i := ("integer", JSc (SInt z)) in
      kvs = [s; i; a] \/ kvs = [s; a; i] \/ kvs = [i; s; a] \/ kvs = [i; a; s] \/ kvs = [a; s; i] \/ kvs = [a; i; s]
  | None => kvs = [s; a] \/ kvs = [a; s]
  end.
Proof.
  unfold row_members. intros H. destruct (r_integer r) as [z|]; cbn [app] in H; cbn zeta.
  - pose proof (Permutation_length H) as Hl. destruct kvs as [|x [|y [|t [|? ?]]]]; try discriminate Hl.
    pose proof (Permutation_in x (Permutation_sym H) ltac:(simpl; auto)) as Hx.
    pose proof (Permutation_in y (Permutation_sym H) ltac:(simpl; auto)) as Hy.
    pose proof (Permutation_in t (Permutation_sym H) ltac:(simpl; auto)) as Ht.
    assert (Hn : NoDup (map fst [x; y; t])).
    { eapply Permutation_NoDup; [apply Permutation_map; exact H|]. cbn [map fst].
      repeat (apply NoDup_cons; [cbn; intuition discriminate|]). apply NoDup_nil. }
    inversion Hn as [|? ? N1 N2]; subst. inversion N2 as [|? ? N3 _]; subst. clear Hn N2 H Hl. cbn [In map fst] in *.
    destruct Hx as [<-|[<-|[<-|[]]]]; destruct Hy as [<-|[<-|[<-|[]]]]; destruct Ht as [<-|[<-|[<-|[]]]]; cbn [fst] in *; try tauto.
  - pose proof (Permutation_length_2_inv H) as [ -> | -> ]; auto.
Qed.

Lemma row_den P r j : row_json r j -> (forall s, p_store P (VSc (SStr s)) = None) -> (forall l o, a_res (p_cb P 0 l o) = CTrue) ->
  forall l, exists w, den P j readme_row l = (l ++ [Ev 0 (OSelf (row_view r))], inr w)%list.
Proof.
  intros (kvs & -> & Hk) Hp Hc l. apply row_orders in Hk. cbn zeta in Hk. unfold row_view.
  assert (Ha : forall l0, elems P (den P) true (SVal TyStr None) None (map jstr (r_array r)) true [] l0 =
    (l0, inr (View true (match r_array r with [] => true | _ => false end) (Some (VVec (map (fun s => VSc (SStr s)) (r_array r)))) 0 [])))
    by (intros; rewrite strings_elems by exact Hp; reflexivity).
  assert (He : forall kids w, missing [(mkM (SStr "string") false None, SVal TyStr None);
     (mkM (SStr "integer") true (Some (VSc (SInt 0))), SVal TyInt None);
     (mkM (SStr "array") false None, SArr true (SVal TyStr None) None)] kids = None -> w = View true false None 0 kids ->
     exists w', end_object P OPlain [(mkM (SStr "string") false None, SVal TyStr None);
     (mkM (SStr "integer") true (Some (VSc (SInt 0))), SVal TyInt None);
     (mkM (SStr "array") false None, SArr true (SVal TyStr None) None)] (Some 0) false kids l = ((l ++ [Ev 0 (OSelf w)])%list, inr w')).
  { intros kids w Hm ->. cbn [end_object]. rewrite Hm. unfold invoke. rewrite Hc. eexists. reflexivity. }
  remember (map jstr (r_array r)) as arr. unfold readme_row.
  destruct (r_integer r) as [z|]; [destruct Hk as [ -> |[ -> |[ -> |[ -> |[ -> | -> ]]]]]|destruct Hk as [ -> | -> ]].
  all: cbn [den Spec.body index_of sc_eqb m_name String.eqb Ascii.eqb Bool.eqb option_map nth_error value_of embedded jstr ty_of vtype_eqb
            end_value invoke andthen fst snd set_nth fresh_kids fresh v_kids map];
    repeat (rewrite Ha; cbn [andthen fst snd set_nth]).
  all: apply He; reflexivity.
Qed.

Lemma row_supported r j : row_json r j -> supported j readme_row = true.
Proof.
  intros (kvs & -> & Hk). apply row_orders in Hk. cbn zeta in Hk.
  assert (Ha : supported (JArr (map jstr (r_array r))) (SArr true (SVal TyStr None) None) = true).
  { cbn [supported is_ign negb andb]. apply forallb_forall. intros j Hj. apply in_map_iff in Hj. destruct Hj as (s & <- & _). reflexivity. }
  remember (map jstr (r_array r)) as arr. unfold readme_row.
  destruct (r_integer r) as [z|]; [destruct Hk as [ -> |[ -> |[ -> |[ -> |[ -> | -> ]]]]]|destruct Hk as [ -> | -> ]];
    cbn [supported sup_body index_of sc_eqb m_name String.eqb Ascii.eqb Bool.eqb option_map nth_error sup_value embedded jstr] in *; rewrite Ha; reflexivity.
Qed.

Lemma rows_in_turn P rows js : Forall2 row_json rows js -> (forall s, p_store P (VSc (SStr s)) = None) -> (forall l o, a_res (p_cb P 0 l o) = CTrue) ->
  forall l, exists ws, in_turn P readme_row js l = (l ++ map (fun r => Ev 0 (OSelf (row_view r))) rows, inr ws)%list.
Proof.
  intros H Hp Hc. induction H as [|r j rows js Hr H IH]; intros l; cbn [in_turn map].
  - exists []. rewrite app_nil_r. reflexivity.
  - destruct (row_den P Hr Hp Hc l) as [w ->]. cbn [andthen]. destruct (IH (l ++ [Ev 0 (OSelf (row_view r))])%list) as [ws ->]. cbn [andthen].
    exists (w :: ws). rewrite <- app_assoc. reflexivity.
Qed.

Lemma row_written r : written r (row_view r).
Proof.
  intros p Hs Hv. destruct p as [| | |b k v ms ig ign cb| |]; try discriminate Hs. cbn [schema_of] in Hs.
  injection Hs as -> Hms Hi Hc. destruct ms as [|[m0 q0] [|[m1 q1] [|[m2 q2] [|? ?]]]]; try discriminate Hms. cbn [map fst snd] in Hms.
  injection Hms as -> H0 -> H1 -> H2. cbn [view_of map snd] in Hv. unfold row_view in Hv. injection Hv as V1 V2 V3 V4 V5 V6.
  destruct q0 as [b0 t0 v0 c0| | | | |]; try discriminate H0. destruct q1 as [b1 t1 v1 c1| | | | |]; try discriminate H1.
  destruct q2 as [|b2 sd st vals e c2| | | |]; try discriminate H2. injection H2 as -> He Hc2. cbn [view_of base_of get_value] in *.
  unfold pop_nth. cbn [member_at nth_error stored is_set base_of m_def]. unfold get_value, val_view, is_set in *. cbn [base_of stored] in *.
  destruct (b_set b0) eqn:B0; [|discriminate V4]. injection V4 as W1 W2.
  assert (P0 : pop_value (PVal b0 t0 v0 c0) = Some (v0, set_set false (PVal b0 t0 v0 c0)))
    by (unfold pop_value, get_value, is_set; cbn [base_of]; rewrite B0; reflexivity).
  rewrite P0. split; [congruence|]. unfold get_nth, get_value, is_set. cbn [member_at set_child set_mem nth_error set_nth stored base_of m_def snd].
  destruct (b_set b2) eqn:B2; [|discriminate V6]. injection V6 as W3 W4. split.
  - destruct (r_integer r) as [z|]; [destruct (b_set b1) eqn:B1; [|discriminate V5]|destruct (b_set b1) eqn:B1; [discriminate V5|]]; injection V5 as W5; try reflexivity.
    congruence.
  - unfold pop_value, get_value, is_set. cbn [base_of stored]. rewrite B2. cbn [fst]. congruence.
Qed.
