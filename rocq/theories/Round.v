(** Round trip: serialising a value of a storing declaration and parsing it. *)

From Verif Require Import Spec Model Infra Total Safe Refine Main DenFacts Closed Accept Order Members.
From Coq Require Import Sorting.Sorted.
Local Open Scope string_scope.
Set Implicit Arguments.

(** ** The declarations, their values, and the serialisation *)

(** Pairwise different names of the members of a union (IEEE equality for
    doubles, and no NaN). *)
Fixpoint distinct (ns : list scalar) : Prop :=
  match ns with
  | [] => True
  | n :: r => sc_eqb n n = true /\ Forall (fun m => sc_eqb n m = false) r /\ distinct r
  end.

(** Storing declarations without callbacks: Value, SArray, SMap, SAutoObject with
    at least one member, SUnion standing alone. *)
Inductive storable : schema -> Prop :=
| st_val t : storable (SVal t None)
| st_arr e : storable e -> storable (SArr true e None)
| st_map e : storable e -> storable (SMp true e None None)
| st_obj ms ign : ms <> [] -> named ms -> Forall (fun mp => storable (snd mp)) ms ->
    storable (SObj OAuto ms ign None)
| st_uni t tm ms : tm <> "" -> distinct (names_of ms) ->
    Forall (fun n => ty_of n = t) (names_of ms) ->
    Forall (fun mp => storable (snd mp) /\ object_like (snd mp) = true) ms ->
    storable (SUni true t tm ms None).

(** The values of a declaration (its ValueType). *)
Fixpoint has (s : schema) (v : value) {struct v} : Prop :=
  match s, v with
  | SVal t _, VSc x => ty_of x = t
  | SArr _ e _, VVec vs =>
      (fix all (vs : list value) {struct vs} : Prop :=
         match vs with [] => True | v :: r => has e v /\ all r end) vs
  | SMp _ e _ _, VMap m =>
      StronglySorted str_lt (map fst m) /\
      (fix all (m : list (string * value)) : Prop :=
         match m with [] => True | (_, v) :: r => has e v /\ all r end) m
  | SObj _ ms _ _, VTup vs =>
      (fix all (ms : list (mspec * schema)) (vs : list value) {struct vs} : Prop :=
         match ms, vs with
         | [], [] => True
         | (_, c) :: ms', v :: vs' => has c v /\ all ms' vs'
         | _, _ => False
         end) ms vs
  | SUni _ _ _ ms _, VVar i v =>
      match nth_error ms i with Some (_, c) => has c v | None => False end
  | _, _ => False
  end.

Definition name_str (m : mspec) : string := match m_name m with SStr n => n | _ => "" end.
Definition pairs_of (j : json) : list (string * json) := match j with JObj ps => ps | _ => [] end.

(** The serialisation. *)
Fixpoint to_json (s : schema) (v : value) {struct v} : json :=
  match s, v with
  | _, VSc x => JSc x
  | SArr _ e _, VVec vs => JArr (map (to_json e) vs)
  | SMp _ e _ _, VMap m => JObj (map (fun kv => (fst kv, to_json e (snd kv))) m)
  | SObj _ ms _ _, VTup vs =>
      JObj ((fix zip (ms : list (mspec * schema)) (vs : list value) {struct vs} : list (string * json) :=
               match ms, vs with
               | (m, c) :: ms', v :: vs' => (name_str m, to_json c v) :: zip ms' vs'
               | _, _ => []
               end) ms vs)
  | SUni _ _ tm ms _, VVar i v =>
      match nth_error ms i with
      | Some (m, c) => JObj ((tm, JSc (m_name m)) :: pairs_of (to_json c v))
      | None => JNull
      end
  | _, _ => JNull
  end.

(** ** Helpers *)
Fixpoint value_ind' (Q : value -> Prop)
  (Hs : forall x, Q (VSc x)) (Hv : forall l, Forall Q l -> Q (VVec l))
  (Ht : forall l, Forall Q l -> Q (VTup l)) (Hu : forall i v, Q v -> Q (VVar i v))
  (Hm : forall l, Forall (fun kv => Q (snd kv)) l -> Q (VMap l))
  (Hc : forall o, Q (VCust o)) (v : value) : Q v :=
  match v with
  | VSc x => Hs x
  | VVec l => Hv l ((fix go (l : list value) : Forall Q l :=
      match l with [] => Forall_nil _ | v :: r => Forall_cons v (value_ind' Hs Hv Ht Hu Hm Hc v) (go r) end) l)
  | VTup l => Ht l ((fix go (l : list value) : Forall Q l :=
      match l with [] => Forall_nil _ | v :: r => Forall_cons v (value_ind' Hs Hv Ht Hu Hm Hc v) (go r) end) l)
  | VVar i v => Hu i v (value_ind' Hs Hv Ht Hu Hm Hc v)
  | VMap l => Hm l ((fix go (l : list (string * value)) : Forall (fun kv => Q (snd kv)) l :=
      match l with [] => Forall_nil _ | kv :: r => Forall_cons kv (value_ind' Hs Hv Ht Hu Hm Hc (snd kv)) (go r) end) l)
  | VCust o => Hc o
  end.

Lemma storable_nocb s : storable s -> nocb s = true.
Proof.
  induction s as [| |st e IHe| ? ? ? ? IH | ? ? ? ? ? IH |] using schema_ind'; intros H; inversion H; subst; simpl; auto.
  - rewrite Forall_forall in *. apply forallb_forall. auto.
  - rewrite Forall_forall in *. apply forallb_forall. intros mp Hin.
    match goal with H : forall x, In x ms -> storable _ /\ _ |- _ => destruct (H _ Hin) end. auto.
Qed.

Lemma storable_not_emb s : storable s -> not_emb s = true.
Proof.
  intros H; inversion H; subst; simpl; auto. apply negb_true_iff. apply String.eqb_neq. auto.
Qed.

Lemma has_not_null s v : has s v -> is_null (to_json s v) = false.
Proof.
  destruct s, v; simpl; try tauto; auto. destruct (nth_error ms i) as [[m c]|]; [auto|tauto].
Qed.

Lemma object_like_json s v : has s v -> object_like s = true -> exists ps, to_json s v = JObj ps.
Proof.
  destruct s, v; simpl; try tauto; try discriminate; eauto.
  destruct (nth_error ms i) as [[m c]|]; [eauto|tauto].
Qed.

(** Values of the library's own types (no user type in them) can be stored. *)
Definition own_types_stored (P : prog) : Prop := forall s v, has s v -> p_store P v = None.

Section Round.
Variable P : prog.
Hypothesis HS : own_types_stored P.
Notation body := (Spec.body P (den P)).

(** What has to be shown of a value. *)
Definition R (v : value) : Prop := forall s, storable s -> has s v ->
  supported (to_json s v) s = true /\ gives P s (to_json s v) v /\
  exists w, meaning P s (to_json s v) = inr w /\ v_set w = true.

Lemma gives_den s j v l : nocb s = true -> gives P s j v ->
  exists w, den P j s l = (l, inr w) /\ v_val w = Some v.
Proof. intros Hs (w & H1 & H2). exists w. rewrite den_meaning, H1; auto. Qed.

Lemma non_null_id js : Forall (fun j => is_null j = false) js -> non_null js = js.
Proof.
  induction 1 as [|j js H _ IH]; auto. unfold non_null in *. cbn [filter]. rewrite H. cbn [negb]. f_equal; auto.
Qed.

Lemma insert_all_id A (m : list (string * A)) : keys_sorted m -> insert_all m [] = m.
Proof.
  intros H. apply sorted_first_of; auto.
  - apply insert_all_sorted. constructor.
  - intros k. rewrite first_of_insert_all; auto. constructor.
Qed.

Lemma sup_obj_body k ms ign cb ps :
  members_plain ms = true ->
  Forall (fun kv => match declared ms (fst kv) with
                    | Some c => supported (snd kv) c = true
                    | None => False
                    end) ps ->
  sup_body supported ps (SObj k ms ign cb) = true.
Proof.
  intros Hp H. induction H as [|[key v] ps Hkv _ IH]; auto.
  rewrite sup_body_cons. unfold declared in Hkv. cbn [fst snd] in Hkv.
  destruct (index_of (SStr key) ms) as [i|]; [|tauto].
  destruct (nth_error ms i) as [[m c]|] eqn:Hn; [|tauto].
  destruct (members_plain_nth _ _ Hp Hn) as [_ He]. cbn [snd] in He.
  unfold sup_value. rewrite (not_emb_embedded _ v He), Hkv, IH. reflexivity.
Qed.

Lemma sup_map_body st e ecb cb ps : not_emb e = true ->
  Forall (fun kv => supported (snd kv) e = true) ps ->
  sup_body supported ps (SMp st e ecb cb) = true.
Proof.
  intros He H. induction H as [|[key v] ps Hkv _ IH]; auto.
  rewrite sup_body_cons. unfold sup_value. rewrite (not_emb_embedded _ v He). cbn [snd] in Hkv.
  rewrite Hkv, IH. auto.
Qed.

Fixpoint zip (ms : list (mspec * schema)) (vs : list value) {struct vs} : list (string * json) :=
  match ms, vs with
  | (m, c) :: ms', v :: vs' => (name_str m, to_json c v) :: zip ms' vs'
  | _, _ => []
  end.

Lemma to_json_obj k ms ign cb vs : to_json (SObj k ms ign cb) (VTup vs) = JObj (zip ms vs).
Proof. reflexivity. Qed.

Fixpoint have (ms : list (mspec * schema)) (vs : list value) {struct vs} : Prop :=
  match ms, vs with
  | [], [] => True
  | (_, c) :: ms', v :: vs' => has c v /\ have ms' vs'
  | _, _ => False
  end.

Lemma zip_keys ns : forall ms vs, names_of ms = map SStr ns -> have ms vs -> map fst (zip ms vs) = ns.
Proof.
  induction ns as [|n ns IH]; intros [|[m c] ms] [|v vs] Hn Hh; simpl in *; try discriminate; try tauto; auto.
  unfold names_of in Hn. cbn [map fst] in Hn. inversion Hn as [[E1 E2]]. unfold name_str. rewrite E1. f_equal.
  apply IH; tauto.
Qed.

(** The member at position [i] and its value in the zipped document. *)
Lemma zip_nth ms : forall vs i m c, have ms vs -> nth_error ms i = Some (m, c) ->
  exists v, nth_error vs i = Some v /\ has c v /\ nth_error (zip ms vs) i = Some (name_str m, to_json c v).
Proof.
  induction ms as [|[m0 c0] ms IH]; intros [|v vs] [|i] m c Hh Hn; simpl in *; try discriminate; try tauto.
  - inversion Hn; subst. exists v. tauto.
  - apply IH; tauto.
Qed.

Lemma zip_len ms : forall vs, have ms vs -> List.length (zip ms vs) = List.length ms.
Proof. induction ms as [|[m c] ms IH]; intros [|v vs] H; simpl in *; try tauto; auto. f_equal. apply IH; tauto. Qed.

Lemma last_of_nth A (ps : list (string * A)) : NoDup (map fst ps) -> forall i k v,
  nth_error ps i = Some (k, v) -> last_of k ps = Some v.
Proof.
  induction ps as [|[k0 v0] ps IH]; intros Hd i k v Hi; [destruct i; discriminate|].
  simpl in Hd. inversion Hd as [|? ? Hn Hd']; subst. destruct i as [|i]; simpl in Hi.
  - inversion Hi; subst. simpl. replace (last_of k ps) with (@None A) by (symmetry; apply last_of_none; auto).
    rewrite String.eqb_refl. auto.
  - simpl. rewrite (IH Hd' i k v Hi). auto.
Qed.

(** The member's parsed values, collected. *)
Lemma values_zip ms : forall vs kids,
  List.length kids = List.length ms -> List.length vs = List.length ms ->
  (forall i w, nth_error kids i = Some w -> v_set w = true /\ exists v, nth_error vs i = Some v /\ v_val w = Some v /\ p_store P v = None) ->
  member_values P ms kids = inr vs.
Proof.
  induction ms as [|[m c] ms IH]; intros [|v vs] [|w kids] L1 L2 H; simpl in L1, L2; try discriminate; auto.
  cbn [member_values]. rewrite (IH vs kids); auto.
  - destruct (H 0 w eq_refl) as (H1 & v' & H2 & H3 & H4). simpl in H2. inversion H2; subst.
    unfold member_value, storing. rewrite H1, H3, H4. auto.
  - intros i w' Hi. apply (H (S i) w' Hi).
Qed.

Lemma named_nth ms i m c : named ms -> nth_error ms i = Some (m, c) -> m_name m = SStr (name_str m).
Proof.
  intros (ns & Hns & _) Hi. assert (In (m_name m) (map SStr ns)).
  { rewrite <- Hns. unfold names_of. apply in_map_iff. exists (m, c). split; auto. eapply nth_error_In; eauto. }
  apply in_map_iff in H. destruct H as (n & Hn & _). unfold name_str. rewrite <- Hn. auto.
Qed.

Lemma index_of_distinct ms : distinct (names_of ms) -> forall i m c,
  nth_error ms i = Some (m, c) -> index_of (m_name m) ms = Some i.
Proof.
  induction ms as [|[m0 c0] ms IH]; intros Hd i m c Hi; [destruct i; discriminate|].
  unfold names_of in Hd. cbn [map distinct fst] in Hd. destruct Hd as (H1 & H2 & H3). destruct i as [|i]; simpl in Hi.
  - inversion Hi; subst. cbn [index_of]. rewrite H1. auto.
  - cbn [index_of]. rewrite Forall_forall in H2. rewrite H2.
    + rewrite (IH H3 i m c Hi). auto.
    + apply in_map_iff. exists (m, c). split; auto. eapply nth_error_In; eauto.
Qed.

Lemma object_like_body c ps l : object_like c = true ->
  den P (JObj ps) c l = body ps c true (fresh_kids c) [] l /\
  supported (JObj ps) c = sup_body supported ps c.
Proof.
  destruct c; simpl; try discriminate; auto. destruct (String.eqb tm ""); [discriminate|auto].
Qed.

Theorem round v : R v.
Proof.
  induction v as [x|vs IH|vs IH|i v IH|m IH|o] using value_ind'; intros s Hs Hh;
    inversion Hs; subst; simpl in Hh; try tauto.
  - (* Value *)
    subst. simpl. split; auto. unfold gives, meaning; simpl.
    replace (vtype_eqb (ty_of x) (ty_of x)) with true by (symmetry; apply vtype_eqb_eq; auto). simpl.
    split; eexists; split; reflexivity.
  - (* SArray *)
    rename H into He. cbn [to_json].
    assert (Hall : Forall (fun v => has e v) vs).
    { revert Hh. clear. induction vs as [|v vs IHv]; intros H; auto. destruct H. constructor; auto. }
    assert (Hgv : Forall2 (yields P e) (map (to_json e) vs) vs).
    { rewrite Forall_forall in IH, Hall. clear Hs Hh. induction vs as [|v vs IHv]; simpl; constructor.
      - assert (Hv : has e v) by (apply Hall; simpl; auto). split; [|apply (HS _ _ Hv)]. apply (IH v); simpl; auto.
      - apply IHv; intros; [apply IH|apply Hall]; simpl; auto. }
    assert (Hnn : non_null (map (to_json e) vs) = map (to_json e) vs).
    { apply non_null_id. rewrite Forall_forall in *. intros j Hj. apply in_map_iff in Hj.
      destruct Hj as (v & <- & Hv). apply has_not_null; auto. }
    split.
    { cbn [supported]. apply andb_true_iff. split.
      - inversion He; reflexivity.
      - apply forallb_forall. intros j Hj. apply in_map_iff in Hj. destruct Hj as (v & <- & Hv).
        rewrite Forall_forall in *. rewrite has_not_null by auto. apply (IH v Hv e He (Hall v Hv)). }
    assert (Hd : den P (JArr (map (to_json e) vs)) (SArr true e None) [] =
                 ([], inr (View true (match vs with [] => true | _ => false end) (Some (VVec vs)) 0 []))).
    { cbn [den]. rewrite (@elems_ok P e None (map (to_json e) vs) (storable_nocb He) vs true [] []).
      - rewrite Hnn. cbn [app]. unfold end_array, invoke. destruct vs; reflexivity.
      - rewrite Hnn. auto. }
    unfold gives, meaning. rewrite Hd. simpl. split; eexists; split; reflexivity.
  - (* SAutoObject *)
    rename H into Hne, H0 into Hnm, H1 into Hms. fold (have ms vs) in Hh.
    rewrite to_json_obj.
    assert (Hplain : members_plain ms = true).
    { unfold members_plain. apply forallb_forall. intros mp Hin. rewrite Forall_forall in Hms.
      rewrite storable_nocb, storable_not_emb; auto. }
    destruct Hnm as (ns & Hns & Hnd). assert (Hnm : named ms) by (exists ns; auto).
    assert (Hkeys : map fst (zip ms vs) = ns) by (apply zip_keys; auto).
    assert (Hpair : forall i m c, nth_error ms i = Some (m, c) ->
       exists v, nth_error vs i = Some v /\ has c v /\ storable c /\ R v /\
                 nth_error (zip ms vs) i = Some (name_str m, to_json c v)).
    { intros i m c Hi. destruct (zip_nth ms vs i Hh Hi) as (v & H1 & H2 & H3). exists v.
      split; [auto|]. split; [auto|]. split; [|split; [|auto]].
      - rewrite Forall_forall in Hms. apply (Hms (m, c)). eapply nth_error_In; eauto.
      - rewrite Forall_forall in IH. apply IH. eapply nth_error_In; eauto. }
    assert (Hdecl : forall k j, In (k, j) (zip ms vs) ->
       exists i m c v, nth_error ms i = Some (m, c) /\ k = name_str m /\ j = to_json c v /\
                       nth_error vs i = Some v /\ has c v /\ storable c /\ R v /\ declared ms k = Some c).
    { intros k j Hin. apply In_nth_error in Hin. destruct Hin as [i Hi].
      assert (Hlt : i < List.length ms).
      { rewrite <- (zip_len ms vs Hh). apply nth_error_Some. congruence. }
      destruct (nth_error ms i) as [[m c]|] eqn:Hn; [|apply nth_error_None in Hn; lia].
      destruct (Hpair i m c Hn) as (v & K1 & K2 & K3 & K4 & K5). rewrite Hi in K5. inversion K5; subst.
      exists i, m, c, v. do 7 (split; [auto|]). unfold declared.
      rewrite (index_of_named i Hnm Hn (named_nth i Hnm Hn)), Hn. auto. }
    assert (Hsup : supported (JObj (zip ms vs)) (SObj OAuto ms ign None) = true).
    { cbn [supported]. apply sup_obj_body; auto. rewrite Forall_forall. intros [k j] Hin. cbn [fst snd].
      destruct (Hdecl k j Hin) as (i & m & c & v & K1 & -> & -> & K4 & K5 & K6 & K7 & ->). apply K7; auto. }
    assert (Hok : Forall (pair_ok P ms ign) (zip ms vs)).
    { rewrite Forall_forall. intros [k j] Hin. unfold pair_ok. cbn [fst snd].
      destruct (Hdecl k j Hin) as (i & m & c & v & K1 & -> & -> & K4 & K5 & K6 & K7 & ->).
      destruct (K7 c K6 K5) as (_ & (w & Hw & _) & _). eauto. }
    assert (Hne' : match zip ms vs with [] => true | _ => false end = false).
    { destruct (zip ms vs) eqn:Hz; auto. destruct ms; [congruence|]. pose proof (zip_len _ _ Hh) as L. rewrite Hz in L. discriminate. }
    assert (Hd : den P (JObj (zip ms vs)) (SObj OAuto ms ign None) [] =
                 ([], inr (View true false (Some (VTup vs)) 0 (map popped (map (member_view P (zip ms vs)) ms))))).
    { rewrite obj_den; auto. rewrite Hne'. unfold end_object.
      rewrite (values_zip ms vs (map (member_view P (zip ms vs)) ms)); auto.
      - apply map_length.
      - clear - Hh. revert vs Hh. induction ms as [|[m c] ms IHm]; intros [|v vs] H; simpl in *; try tauto; auto.
        f_equal. apply IHm; tauto.
      - intros i w Hw. rewrite nth_error_map in Hw. destruct (nth_error ms i) as [[m c]|] eqn:Hn; [|discriminate].
        simpl in Hw. inversion Hw; subst. destruct (Hpair i m c Hn) as (v & K1 & K2 & K3 & K4 & K5).
        unfold member_view. cbn [fst snd]. rewrite (named_nth i Hnm Hn).
        rewrite (last_of_nth (zip ms vs)) with (i := i) (v := to_json c v); [|auto|auto].
        destruct (K4 c K3 K2) as (_ & (w & Hw1 & Hw2) & (w' & Hw3 & Hw4)).
        rewrite Hw1 in Hw3. inversion Hw3; subst. unfold view_by. rewrite Hw1. split; auto. exists v. split; auto. split; auto. apply (HS _ _ K2). }
    split; auto. unfold gives, meaning. rewrite Hd. simpl. split; eexists; split; reflexivity.
  - (* SUnion *)
    rename H into Htm, H0 into Hdist, H1 into Hty, H2 into Hms.
    destruct (nth_error ms i) as [[m c]|] eqn:Hn; [|tauto].
    rewrite Forall_forall in Hms. destruct (Hms (m, c)) as [Hc Hol]; [eapply nth_error_In; eauto|]. cbn [snd] in *.
    destruct (IH c Hc Hh) as (I1 & (w & I2 & I3) & (w' & I4 & I5)). rewrite I2 in I4. inversion I4; subst w'.
    cbn [to_json]. rewrite Hn. destruct (object_like_json c v Hh Hol) as [ps Hps]. rewrite Hps in *. cbn [pairs_of].
    destruct (@object_like_body c ps [] Hol) as [B1 B2].
    assert (Hix : index_of (m_name m) ms = Some i) by (eapply index_of_distinct; eauto).
    assert (Ht : vtype_eqb (ty_of (m_name m)) t = true).
    { apply vtype_eqb_eq. rewrite Forall_forall in Hty. apply Hty. unfold names_of. apply in_map_iff.
      exists (m, c). split; auto. eapply nth_error_In; eauto. }
    assert (Htm' : String.eqb tm "" = false) by (apply String.eqb_neq; auto).
    split.
    { cbn [supported]. rewrite Htm', sup_body_cons, Htm', String.eqb_refl. unfold sup_select.
      rewrite Ht, Hix, Hn, <- B2. auto. }
    assert (Hd : exists u, den P (JObj ((tm, JSc (m_name m)) :: ps)) (SUni true t tm ms None) [] = ([], inr u) /\
                 v_val u = Some (VVar i v) /\ v_set u = true).
    { rewrite den_uni, Htm', body_cons, Htm', String.eqb_refl. cbn zeta. unfold select. rewrite Ht, Hix, Hn.
      rewrite <- B1. rewrite (den_meaning P (JObj ps) c [] (storable_nocb Hc)), I2. cbn [andthen].
      unfold end_union, member_value, storing. rewrite I5, I3, (HS _ _ Hh). unfold invoke. eexists. split; [reflexivity|]. auto. }
    destruct Hd as (u & Hd & Hu1 & Hu2).
    unfold gives, meaning. rewrite Hd. simpl. split; exists u; auto.
  - (* SMap *)
    rename H into He. destruct Hh as [Hsort Hh]. cbn [to_json].
    set (ps := map (fun kv => (fst kv, to_json e (snd kv))) m).
    assert (Hall : Forall (fun kv => has e (snd kv)) m).
    { revert Hh. clear. induction m as [|[k v] m IHm]; intros H; auto. destruct H. constructor; auto. }
    assert (Hgv : Forall2 (yields P e) (map snd ps) (map snd m)).
    { rewrite Forall_forall in IH, Hall. clear Hs Hh Hsort. subst ps. induction m as [|[k v] m IHm]; simpl; constructor.
      - assert (Hv : has e v) by (apply (Hall (k, v)); simpl; auto). split; [|apply (HS _ _ Hv)]. apply (IH (k, v)); simpl; auto.
      - apply IHm; intros; [apply IH|apply Hall]; simpl; auto. }
    assert (Hcomb : combine (map fst ps) (map snd m) = m).
    { subst ps. clear. induction m as [|[k v] m IHm]; simpl; auto. f_equal. auto. }
    split.
    { cbn [supported]. apply sup_map_body; [apply storable_not_emb; auto|]. rewrite Forall_forall. intros [k j] Hin.
      subst ps. apply in_map_iff in Hin. destruct Hin as ([k' v] & Hk & Hin). inversion Hk; subst.
      rewrite Forall_forall in IH, Hall. cbn [snd]. apply (IH (k, v) Hin e He). apply (Hall (k, v) Hin). }
    assert (Hd : den P (JObj ps) (SMp true e None None) [] =
                 ([], inr (View true (match ps with [] => true | _ => false end) (Some (VMap m)) 0 []))).
    { rewrite den_obj by exact I.
      rewrite (@map_ok P e None ps (storable_nocb He) (storable_not_emb He) (map snd m)); auto.
      rewrite Hcomb, insert_all_id by exact Hsort. unfold end_map, invoke, pops. simpl. reflexivity. }
    unfold gives, meaning. rewrite Hd. simpl. split; eexists; split; reflexivity.
Qed.
End Round.
