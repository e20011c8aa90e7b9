(** Property theorems, part 29: an object is its members, one by one (C56). *)

From Verif Require Import Spec Model Infra Total Safe Refine Main Api ApiProofs History ApiFacts Outcome Closed Members Json Grammar Docs3.
Local Open Scope string_scope.
Set Implicit Arguments.

(** ** C56 *)

(** A Parser of the declaration [c], wherever it is in its life, whose callbacks have been
    invoked as [l] says, does [o] with the document [j]. *)
Definition alone (tk : tokenizer) g yerr (P : prog) (c : schema) (j : json) (l : list event) (o : outcome) : Prop :=
  exists (a : api tk) M b bufs, reads g yerr c a M b bufs j /\ past a = l /\ doc g yerr P M b bufs a = o.

(** What an alternative of an embedded union has to be. *)
Definition is_object (s : schema) : bool := match s with SObj _ _ _ _ | SMp _ _ _ _ => true | _ => false end.

Section Parts.
Variable tk : tokenizer.
Variables (g : nat) (yerr : list ascii -> string).
Variable P : prog.
(** The members of an object, and whether it ignores the unknown ones. *)
Variable ms : list (mspec * schema).
Variable ign : bool.

(** The members [ps] of a document, one after the other, each given as a document to a
    Parser of the member's declaration; [ks]: what the parsers of the members show.
    The result: the callbacks that have been invoked, and the error or what the parsers
    of the members show. *)
Inductive parts : list (string * json) -> list view -> list event -> list event -> string + list view -> Prop :=
| pt_end ks l : parts [] ks l l (inr ks)
| pt_member k j ps i m c ks l l1 w l2 r :
    index_of (SStr k) ms = Some i -> nth_error ms i = Some (m, c) -> embedded c j = None ->
    alone tk g yerr P c j l (Parsed l1 w) -> parts ps (set_nth i w ks) l1 l2 r ->
    parts ((k, j) :: ps) ks l l2 r
| pt_rejected k j ps i m c ks l l1 e :
    index_of (SStr k) ms = Some i -> nth_error ms i = Some (m, c) -> embedded c j = None ->
    alone tk g yerr P c j l (Failed l1 e) ->
    parts ((k, j) :: ps) ks l l1 (inl e)
| pt_ignored k j ps ks l l2 r :
    index_of (SStr k) ms = None -> ign = true -> parts ps ks l l2 r ->
    parts ((k, j) :: ps) ks l l2 r
| pt_unknown k j ps ks l :
    index_of (SStr k) ms = None -> ign = false ->
    parts ((k, j) :: ps) ks l l (inl (caught (XStd ("Unexpected member " ++ k))))
(* the type of an embedded union: the rest of the object is the document of the
   alternative; then the union ends *)
| pt_union k x ps i m st us ucb n um uc ks l l1 w l2 u :
    index_of (SStr k) ms = Some i -> nth_error ms i = Some (m, SUni st (ty_of x) "" us ucb) ->
    index_of x us = Some n -> nth_error us n = Some (um, uc) -> is_object uc = true ->
    alone tk g yerr P uc (JObj ps) l (Parsed l1 w) ->
    end_union P st ucb n um w (map (fun mp => fresh (snd mp)) us) l1 = (l2, inr u) ->
    parts ((k, JSc x) :: ps) ks l l2 (inr (set_nth i u ks))
| pt_union_rejected k x ps i m st us ucb n um uc ks l l1 e :
    index_of (SStr k) ms = Some i -> nth_error ms i = Some (m, SUni st (ty_of x) "" us ucb) ->
    index_of x us = Some n -> nth_error us n = Some (um, uc) -> is_object uc = true ->
    alone tk g yerr P uc (JObj ps) l (Failed l1 e) ->
    parts ((k, JSc x) :: ps) ks l l1 (inl e)
| pt_union_end k x ps i m st us ucb n um uc ks l l1 w l2 e :
    index_of (SStr k) ms = Some i -> nth_error ms i = Some (m, SUni st (ty_of x) "" us ucb) ->
    index_of x us = Some n -> nth_error us n = Some (um, uc) -> is_object uc = true ->
    alone tk g yerr P uc (JObj ps) l (Parsed l1 w) ->
    end_union P st ucb n um w (map (fun mp => fresh (snd mp)) us) l1 = (l2, inl e) ->
    parts ((k, JSc x) :: ps) ks l l2 (inl (caught e))
| pt_union_none k x ps i m st us ucb ks l :
    index_of (SStr k) ms = Some i -> nth_error ms i = Some (m, SUni st (ty_of x) "" us ucb) ->
    index_of x us = None ->
    parts ((k, JSc x) :: ps) ks l l (inl (caught (XStd ("Unexpected member " ++ name_text P x))))
| pt_union_type k x ps i m st t us ucb ks l :
    index_of (SStr k) ms = Some i -> nth_error ms i = Some (m, SUni st t "" us ucb) -> ty_of x <> t ->
    parts ((k, JSc x) :: ps) ks l l (inl (caught (unexpected (TSc x)))).
End Parts.

(** *** Proof *)
Lemma alone_den (tk : tokenizer) g yerr P c j l o : supported j c = true -> alone tk g yerr P c j l o -> expected (den P j c l) = o.
Proof. intros Hs (a & M & b & bufs & Hr & <- & <-). symmetry. apply doc_expected with (s := c); auto. Qed.

Lemma parsed_inv (o : out) l w : expected o = Parsed l w -> o = (l, inr w).
Proof. destruct o as [l' [e|w']]; simpl; [discriminate|]. intros H. injection H as -> ->. reflexivity. Qed.

Lemma failed_inv (o : out) l e : expected o = Failed l e -> exists x, o = (l, inl x) /\ caught x = e.
Proof. destruct o as [l' [x|w']]; simpl; [|discriminate]. intros H. injection H as -> <-. eauto. Qed.

Lemma object_den P ps uc l : is_object uc = true -> den P (JObj ps) uc l = Spec.body P (den P) ps uc true (fresh_kids uc) [] l.
Proof. destruct uc; try discriminate; reflexivity. Qed.

Lemma object_supported ps uc : is_object uc = true -> supported (JObj ps) uc = sup_body supported ps uc.
Proof. destruct uc; try discriminate; reflexivity. Qed.

Lemma embedded_union st us ucb x : embedded (SUni st (ty_of x) "" us ucb) (JSc x) = Some (st, ty_of x, us, ucb, x).
Proof. reflexivity. Qed.

Lemma same_type t : vtype_eqb t t = true.
Proof. apply vtype_eqb_eq. reflexivity. Qed.

Lemma parts_body (tk : tokenizer) g yerr P knd ms ign cb ps ks l l2 r : parts tk g yerr P ms ign ps ks l l2 r ->
  forall emp vals, sup_body supported ps (SObj knd ms ign cb) = true ->
  expected (Spec.body P (den P) ps (SObj knd ms ign cb) emp ks vals l) =
  match r with
  | inl e => Failed l2 e
  | inr ks' => expected (end_object P knd ms cb (match ps with [] => emp | _ => false end) ks' l2)
  end.
Proof.
  intros H. induction H as [ks l|k j ps i m c ks l l1 w l2 r Hi Hn He Ha H IH|k j ps i m c ks l l1 e Hi Hn He Ha
    |k j ps ks l l2 r Hi Hg H IH|k j ps ks l Hi Hg
    |k x ps i m st us ucb n um uc ks l l1 w l2 u Hi Hn Hx Hu Ho Ha Hend|k x ps i m st us ucb n um uc ks l l1 e Hi Hn Hx Hu Ho Ha
    |k x ps i m st us ucb n um uc ks l l1 w l2 e Hi Hn Hx Hu Ho Ha Hend|k x ps i m st us ucb ks l Hi Hn Hx|k x ps i m st t us ucb ks l Hi Hn Hx];
    intros emp vals Hs; [reflexivity| | | | | | | | |].
  all: rewrite sup_body_cons in Hs; cbn [Spec.body]; rewrite Hi in *; try rewrite Hn in *; try rewrite Hg in *.
  - unfold sup_value in Hs. rewrite He in Hs. apply andb_true_iff in Hs as [Hs1 Hs2]. apply (alone_den Hs1) in Ha. apply parsed_inv in Ha.
    unfold value_of. rewrite He, Ha. cbn [andthen fst snd]. rewrite IH by auto. destruct ps; reflexivity.
  - unfold sup_value in Hs. rewrite He in Hs. apply andb_true_iff in Hs as [Hs1 Hs2]. apply (alone_den Hs1) in Ha. apply failed_inv in Ha.
    destruct Ha as (y & Hd & <-). unfold value_of. rewrite He, Hd. reflexivity.
  - apply andb_true_iff in Hs as [Hs1 Hs2]. rewrite IH by auto. destruct ps; reflexivity.
  - reflexivity.
  - unfold sup_value in Hs. rewrite embedded_union in Hs. unfold sup_select in Hs. rewrite same_type, Hx, Hu in Hs.
    rewrite <- object_supported in Hs by auto. apply (alone_den Hs) in Ha. apply parsed_inv in Ha. rewrite object_den in Ha by auto.
    unfold value_of. rewrite embedded_union. unfold select. rewrite same_type, Hx, Hu, Ha. cbn [andthen]. rewrite Hend. reflexivity.
  - unfold sup_value in Hs. rewrite embedded_union in Hs. unfold sup_select in Hs. rewrite same_type, Hx, Hu in Hs.
    rewrite <- object_supported in Hs by auto. apply (alone_den Hs) in Ha. apply failed_inv in Ha. destruct Ha as (y & Ha & <-). rewrite object_den in Ha by auto.
    unfold value_of. rewrite embedded_union. unfold select. rewrite same_type, Hx, Hu, Ha. reflexivity.
  - unfold sup_value in Hs. rewrite embedded_union in Hs. unfold sup_select in Hs. rewrite same_type, Hx, Hu in Hs.
    rewrite <- object_supported in Hs by auto. apply (alone_den Hs) in Ha. apply parsed_inv in Ha. rewrite object_den in Ha by auto.
    unfold value_of. rewrite embedded_union. unfold select. rewrite same_type, Hx, Hu, Ha. cbn [andthen]. rewrite Hend. reflexivity.
  - unfold value_of. rewrite embedded_union. unfold select. rewrite same_type, Hx. reflexivity.
  - unfold value_of, embedded. cbn [String.eqb]. unfold select.
    destruct (vtype_eqb (ty_of x) t) eqn:E; [apply vtype_eqb_eq in E; contradiction|reflexivity].
Qed.

(** An object with the members [ps] for an object parser does what its members do one
    after the other, each as a document of its own for a Parser of its declaration: the same
    callbacks with the same arguments, the same error; then the object ends. *)
Lemma c56_object : forall (tk tk' : tokenizer) g g' yerr yerr' P k ms ign cb (a : api tk) M b bufs ps l r,
  reads g yerr (SObj k ms ign cb) a M b bufs (JObj ps) -> supported (JObj ps) (SObj k ms ign cb) = true -> ps <> [] ->
  parts tk' g' yerr' P ms ign ps (map (fun mp => fresh (snd mp)) ms) (past a) l r ->
  doc g yerr P M b bufs a =
  match r with
  | inl e => Failed l e
  | inr ks => expected (end_object P k ms cb false ks l)
  end.
Proof.
  intros tk tk' g g' yerr yerr' P k ms ign cb a M b bufs ps l r Hr Hs Hn Hp.
  rewrite (doc_expected P Hr Hs). change (den P (JObj ps) (SObj k ms ign cb) (past a)) with
    (Spec.body P (den P) ps (SObj k ms ign cb) true (map (fun mp => fresh (snd mp)) ms) [] (past a)).
  rewrite (parts_body k cb Hp true [] Hs). destruct r; auto. destruct ps; congruence.
Qed.

(** An object with a single member. *)
Lemma c56_one_member : forall (tk tk' : tokenizer) g g' yerr yerr' P n m c cb (a : api tk) M b bufs (a1 : api tk') M1 b1 bufs1 j l w,
  reads g yerr (SObj OPlain [(m, c)] false cb) a M b bufs (JObj [(n, j)]) -> m_name m = SStr n -> 
  supported (JObj [(n, j)]) (SObj OPlain [(m, c)] false cb) = true -> embedded c j = None ->
  reads g' yerr' c a1 M1 b1 bufs1 j -> past a1 = past a -> doc g' yerr' P M1 b1 bufs1 a1 = Parsed l w -> v_set w = true ->
  doc g yerr P M b bufs a =
  let o := View true false None 0 [w] in
  match cb with
  | None => Parsed l o
  | Some f => let act := p_cb P f l (OSelf o) in let l' := (l ++ [Ev f (OSelf o)])%list in
      match a_res act with
      | CTrue => Parsed l' (fold_left (fun v rel => pop_at rel v) (a_pops act) o)
      | CFalse => Failed l' msg_cb_false
      | CThrow e => Failed l' (caught (XStd e))
      | CThrowOther => Failed l' (caught XOther)
      end
  end.
Proof.
  intros tk tk' g g' yerr yerr' P n m c cb a M b bufs a1 M1 b1 bufs1 j l w Hr Hm Hs He Hr1 Hp Hd Hw.
  assert (Hi : index_of (SStr n) [(m, c)] = Some 0) by (cbn [index_of]; rewrite Hm; cbn [sc_eqb]; rewrite String.eqb_refl; reflexivity).
  rewrite (@c56_object tk tk' g g' yerr yerr' P OPlain [(m, c)] false cb a M b bufs [(n, j)] l (inr [w]) Hr Hs ltac:(discriminate)).
  - cbn [end_object missing]. rewrite Hw. cbn [orb]. unfold invoke, pops. destruct cb as [f|]; [|reflexivity].
    cbn zeta. destruct (a_res (p_cb P f l (OSelf (View true false None 0 [w])))); reflexivity.
  - eapply (@pt_member tk' g' yerr' P [(m, c)] false n j [] 0 m c); [exact Hi|reflexivity|exact He| |apply pt_end]. rewrite <- Hp. exists a1, M1, b1, bufs1. auto.
Qed.

(** With the tokenizer for JSON: there always is such a sequence of documents. *)
Lemma alone_always g yerr P c j l : printable j = true -> supported j c = true ->
  alone json_tk g yerr P c j l (expected (den P j c l)).
Proof.
  intros Hp Hs. assert (Hr : reads g yerr c (start json_tk g (mk c) l) (fun _ => Some (print j)) 0 [] j).
  { split; [apply h_new|]. split; [apply at_start_new|]. exists (print j), (ended []). split; [unfold content; simpl; rewrite ?app_nil_r; reflexivity|].
    apply json_round_trip. exact Hp. }
  exists (start json_tk g (mk c) l), (fun _ => Some (print j)), 0, []. split; [exact Hr|]. split; [reflexivity|].
  rewrite (doc_expected P Hr Hs). reflexivity.
Qed.

Lemma c56_always : forall g yerr P ms ign ps, printable (JObj ps) = true -> supported (JObj ps) (SObj OPlain ms ign None) = true ->
  (forall m st t us ucb, In (m, SUni st t "" us ucb) ms -> forall um uc, In (um, uc) us -> is_object uc = true) ->
  forall ks l, exists l2 r, parts json_tk g yerr P ms ign ps ks l l2 r.
Proof.
  intros g yerr P ms ign ps Hp Hs Hu. change (sup_body supported ps (SObj OPlain ms ign None) = true) in Hs.
  induction ps as [|[k j] ps IH]; intros ks l; [eexists; eexists; apply pt_end|].
  cbn [printable forallb fst snd] in Hp. apply andb_true_iff in Hp as [Hp Hps]. apply andb_true_iff in Hp as [_ Hj].
  specialize (IH Hps). rewrite sup_body_cons in Hs. destruct (index_of (SStr k) ms) as [i|] eqn:Hi.
  - destruct (index_of_nth _ _ Hi) as ([m c] & Hn & _). rewrite Hn in Hs. unfold sup_value in Hs. destruct (embedded c j) as [[[[[st t] us] ucb] x]|] eqn:He.
    + destruct c as [| | | |st0 t0 tm us0 ucb0|]; try discriminate He. destruct j as [|x0| |]; try discriminate He. cbn [embedded] in He.
      destruct (String.eqb tm "") eqn:Et; [|discriminate He]. apply String.eqb_eq in Et. subst tm. injection He as -> -> -> -> ->.
      unfold sup_select in Hs. destruct (vtype_eqb (ty_of x) t) eqn:Ex.
      * apply vtype_eqb_eq in Ex. subst t. destruct (index_of x us) as [q|] eqn:Hx; [|eexists; eexists; eapply pt_union_none; eauto].
        destruct (index_of_nth _ _ Hx) as ([um uc] & Hq & _). rewrite Hq in Hs.
        assert (Ho : is_object uc = true) by (eapply Hu; eapply nth_error_In; eauto).
        rewrite <- object_supported in Hs by auto. pose proof (@alone_always g yerr P uc (JObj ps) l Hps Hs) as Ha.
        destruct (den P (JObj ps) uc l) as [l1 [e|w]] eqn:Hd; cbn [expected] in Ha; [eexists; eexists; eapply pt_union_rejected; eauto|].
        destruct (end_union P st ucb q um w (map (fun mp => fresh (snd mp)) us) l1) as [l2 [e|u]] eqn:Hend; eexists; eexists;
          [eapply pt_union_end; eauto|eapply pt_union; eauto].
      * eexists; eexists; eapply pt_union_type; eauto. intros K. rewrite <- K in Ex. rewrite same_type in Ex. discriminate.
    + apply andb_true_iff in Hs as [Hs1 Hs2]. pose proof (@alone_always g yerr P c j l Hj Hs1) as Ha.
      destruct (den P j c l) as [l1 [e|w]] eqn:Hd; cbn [expected] in Ha; [eexists; eexists; eapply pt_rejected; eauto|].
      destruct (IH Hs2 (set_nth i w ks) l1) as (l2 & r & H). eexists; eexists; eapply pt_member; eauto.
  - destruct ign eqn:Hg; [|eexists; eexists; eapply pt_unknown; eauto].
    apply andb_true_iff in Hs as [Hs1 Hs2]. destruct (IH Hs2 ks l) as (l2 & r & H). eexists; eexists; eapply pt_ignored; eauto.
Qed.

(** A union that stands alone: the document [{type: x, ps}] does what the document [{ps}] does
    for a Parser of the alternative that [x] names; then the union ends. *)
Lemma c56_union : forall (tk tk' : tokenizer) g g' yerr yerr' P st tm us cb n um uc x (a : api tk) M b bufs ps o,
  reads g yerr (SUni st (ty_of x) tm us cb) a M b bufs (JObj ((tm, JSc x) :: ps)) ->
  supported (JObj ((tm, JSc x) :: ps)) (SUni st (ty_of x) tm us cb) = true -> tm <> "" ->
  index_of x us = Some n -> nth_error us n = Some (um, uc) -> is_object uc = true ->
  alone tk' g' yerr' P uc (JObj ps) (past a) o ->
  doc g yerr P M b bufs a =
  match o with
  | Parsed l w => expected (end_union P st cb n um w (map (fun mp => fresh (snd mp)) us) l)
  | _ => o
  end.
Proof.
  intros tk tk' g g' yerr yerr' P st tm us cb n um uc x a M b bufs ps o Hr Hs Ht Hx Hu Ho Ha.
  rewrite (doc_expected P Hr Hs). apply String.eqb_neq in Ht. cbn [den supported] in *. rewrite Ht in *. cbn [Spec.body]. rewrite Ht, String.eqb_refl.
  rewrite sup_body_cons, Ht, String.eqb_refl in Hs. unfold sup_select in Hs. rewrite same_type, Hx, Hu in Hs. rewrite <- object_supported in Hs by auto.
  apply (alone_den Hs) in Ha. rewrite object_den in Ha by auto. unfold select. rewrite same_type, Hx, Hu.
  destruct (Spec.body P (den P) ps uc true (fresh_kids uc) [] (past a)) as [l [e|w]]; cbn [andthen expected] in *; subst o; reflexivity.
Qed.
