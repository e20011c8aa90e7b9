(** Memory safety of the dispatcher pointers, and constancy of the declaration. *)

From Verif Require Import Model Infra Total.
Set Implicit Arguments.

(** No Union is the direct element parser of an array. *)
Fixpoint no_arr_uni (s : schema) : bool :=
  match s with
  | SVal _ _ | SIgn => true
  | SArr _ e _ => (match e with SUni _ _ _ _ _ => false | _ => true end) && no_arr_uni e
  | SMp _ e _ _ => no_arr_uni e
  | SObj _ ms _ _ | SUni _ _ _ ms _ => forallb (fun mp => no_arr_uni (snd mp)) ms
  end.

Section Safe.
Variable g : nat.

(** ** Trees that differ in run-time state only, dispatcher pointers only moving
    to the live dispatcher *)
Definition le_b (b1 b2 : base) : Prop := b_disp b2 = b_disp b1 \/ b_disp b2 = Some g.

Definition le_i (i1 i2 : igst) : Prop := le_b (ig_b i1) (ig_b i2).

Inductive le_p : parser -> parser -> Prop :=
| le_val b1 b2 t v1 v2 cb : le_b b1 b2 -> le_p (PVal b1 t v1 cb) (PVal b2 t v2 cb)
| le_arr b1 b2 sd1 sd2 st v1 v2 e1 e2 cb :
    le_b b1 b2 -> le_p e1 e2 -> le_p (PArr b1 sd1 st v1 e1 cb) (PArr b2 sd2 st v2 e2 cb)
| le_map b1 b2 st k1 k2 v1 v2 e1 e2 ecb cb :
    le_b b1 b2 -> le_p e1 e2 -> le_p (PMap b1 st k1 v1 e1 ecb cb) (PMap b2 st k2 v2 e2 ecb cb)
| le_obj b1 b2 k v1 v2 ms1 ms2 i1 i2 ign cb :
    le_b b1 b2 -> le_i i1 i2 -> le_ms ms1 ms2 ->
    le_p (PObj b1 k v1 ms1 i1 ign cb) (PObj b2 k v2 ms2 i2 ign cb)
| le_uni b1 b2 st v1 v2 t tm c1 c2 ms1 ms2 i1 i2 cb :
    le_b b1 b2 -> le_i i1 i2 -> le_ms ms1 ms2 ->
    le_p (PUni b1 st v1 t tm c1 ms1 i1 cb) (PUni b2 st v2 t tm c2 ms2 i2 cb)
| le_ign i1 i2 : le_i i1 i2 -> le_p (PIgn i1) (PIgn i2)
with le_ms : list (mspec * parser) -> list (mspec * parser) -> Prop :=
| le_nil : le_ms [] []
| le_cons m p1 p2 r1 r2 : le_p p1 p2 -> le_ms r1 r2 -> le_ms ((m, p1) :: r1) ((m, p2) :: r2).

Scheme le_p_ind' := Induction for le_p Sort Prop
with le_ms_ind' := Induction for le_ms Sort Prop.
Combined Scheme le_mut from le_p_ind', le_ms_ind'.

Lemma le_b_refl b : le_b b b.
Proof. left; auto. Qed.
Lemma le_i_refl i : le_i i i.
Proof. left; auto. Qed.
Lemma le_b_trans a b c : le_b a b -> le_b b c -> le_b a c.
Proof. intros [H|H] [H'|H']; unfold le_b; rewrite ?H'; auto. Qed.
Hint Resolve le_b_refl le_i_refl : le.
Hint Constructors le_p le_ms : le.

Lemma le_refl p : le_p p p.
Proof.
  induction p as [| | ? ? ? ? ? ? ? IH | ? ? ? ? ? ? ? IH | ? ? ? ? ? ? ? ? ? IH |]
    using parser_ind'; constructor; auto with le.
  - induction IH as [|[m q] r H _ IHr]; auto with le.
  - induction IH as [|[m q] r H _ IHr]; auto with le.
Qed.

Lemma le_ms_refl ms : le_ms ms ms.
Proof. induction ms as [|[m q] r IH]; auto using le_refl with le. Qed.
Hint Resolve le_refl le_ms_refl : le.

Lemma le_trans_mut :
  (forall p q, le_p p q -> forall r, le_p q r -> le_p p r) /\
  (forall p q, le_ms p q -> forall r, le_ms q r -> le_ms p r).
Proof.
  apply le_mut; intros;
    match goal with
    | H : le_p _ ?r |- le_p _ ?r => inversion H; subst
    | H : le_ms _ ?r |- le_ms _ ?r => inversion H; subst
    end; econstructor; eauto using le_b_trans; try (eapply le_b_trans; eauto; fail).
Qed.
Lemma le_trans p q r : le_p p q -> le_p q r -> le_p p r.
Proof. intros; eapply (proj1 le_trans_mut); eauto. Qed.

Lemma le_schema_mut :
  (forall p q, le_p p q -> schema_of p = schema_of q) /\
  (forall p q, le_ms p q ->
     map (fun mp => (fst mp, schema_of (snd mp))) p = map (fun mp => (fst mp, schema_of (snd mp))) q).
Proof. apply le_mut; simpl; intros; congruence. Qed.
Lemma le_schema p q : le_p p q -> schema_of p = schema_of q.
Proof. apply (proj1 le_schema_mut). Qed.

Lemma le_nth ms1 ms2 n mp1 :
  le_ms ms1 ms2 -> nth_error ms1 n = Some mp1 ->
  exists mp2, nth_error ms2 n = Some mp2 /\ fst mp1 = fst mp2 /\ le_p (snd mp1) (snd mp2).
Proof.
  intros H; revert n; induction H as [|m p1 p2 r1 r2 Hp Hr IH]; intros [|n] Hn; simpl in *;
    try discriminate; eauto.
  inversion Hn; subst. eexists; eauto.
Qed.

Lemma le_child p q st c :
  le_p p q -> child p st = Some c -> exists d, child q st = Some d /\ le_p c d.
Proof.
  intros H Hc; inversion H; subst; destruct st; simpl in *; try discriminate;
    try (inversion Hc; subst; eauto with le; fail);
  destruct (nth_error ms1 n) as [mp|] eqn:Hn; try discriminate; inversion Hc; subst;
  match goal with Hm : le_ms _ _ |- _ => destruct (le_nth _ Hm Hn) as (mp2 & -> & _ & ?) end;
  simpl; eauto.
Qed.

Lemma le_get pi : forall p q c,
  le_p p q -> get pi p = Some c -> exists d, get pi q = Some d /\ le_p c d.
Proof.
  induction pi as [|st pi IH]; simpl; intros p q c H Hc; [inversion Hc; subst; eauto|].
  destruct (child p st) as [x|] eqn:Hx; try discriminate.
  destruct (le_child _ H Hx) as (y & -> & Hy). eauto.
Qed.

Lemma le_set_nth ms n m p q :
  nth_error ms n = Some (m, p) -> le_p p q -> le_ms ms (set_nth n (m, q) ms).
Proof.
  revert n; induction ms as [|[m' p'] r IH]; intros [|n] H Hle; simpl in *; try discriminate.
  - inversion H; subst; auto with le.
  - auto with le.
Qed.

Lemma le_set_mem ms n mp q :
  nth_error ms n = Some mp -> le_p (snd mp) q -> le_ms ms (set_mem n q ms).
Proof.
  intros H Hle; unfold set_mem; rewrite H. destruct mp; simpl in *. eapply le_set_nth; eauto.
Qed.

Lemma le_set_child p st c q : child p st = Some c -> le_p c q -> le_p p (set_child p st q).
Proof.
  destruct p, st; simpl; intros Hc Hle; try discriminate; try (inversion Hc; subst; auto with le).
  - destruct (nth_error ms n) as [mp|] eqn:Hn; try discriminate. inversion Hc; subst.
    constructor; auto with le. eapply le_set_mem; eauto.
  - constructor; auto with le. inversion Hle; subst. auto.
  - destruct (nth_error ms n) as [mp|] eqn:Hn; try discriminate. inversion Hc; subst.
    constructor; auto with le. eapply le_set_mem; eauto.
  - constructor; auto with le. inversion Hle; subst. auto.
Qed.

Lemma le_put pi : forall p c q, get pi p = Some c -> le_p c q -> le_p p (put pi q p).
Proof.
  induction pi as [|st pi IH]; simpl; intros p c q H Hle; [inversion H; subst; auto|].
  destruct (child p st) as [x|] eqn:Hx; try discriminate.
  eapply le_set_child; eauto.
Qed.

Lemma le_kind p q : le_p p q -> same_kind p q.
Proof. intros H; inversion H; simpl; auto. Qed.

(** Steps of the code on one node. *)
Lemma le_with_base p b : le_b (base_of p) b -> le_p p (with_base p b).
Proof. destruct p; simpl; intros; auto with le. Qed.

Lemma le_set_set x p : le_p p (set_set x p).
Proof. apply le_with_base. left; auto. Qed.

Lemma le_set_not_empty p : le_p p (set_not_empty p).
Proof. apply le_with_base. left; auto. Qed.

Lemma le_reset p : le_p p (reset p).
Proof.
  assert (Hb : forall b, le_b b (reset_base b)) by (left; auto).
  induction p as [| | ? ? ? ? ? ? ? IH | ? ? ? ? ? ? ? IH | ? ? ? ? ? ? ? ? ? IH |]
    using parser_ind'; simpl; constructor; auto with le;
    try (unfold le_i, reset_ig; simpl; auto; fail).
  - induction IH as [|[m q] r H _ IHr]; simpl; auto with le.
  - induction IH as [|[m q] r H _ IHr]; simpl; auto with le.
Qed.

Lemma le_set_disp p : le_p p (set_disp (Some g) p).
Proof.
  assert (Hb : forall b, le_b b (disp_base (Some g) b)) by (right; auto).
  induction p as [| | ? ? ? ? ? ? ? IH | ? ? ? ? ? ? ? IH | ? ? ? ? ? ? ? ? ? IH |]
    using parser_ind'; simpl; constructor; auto with le;
    try (unfold le_i; simpl; auto; fail).
  - induction IH as [|[m q] r H _ IHr]; simpl; auto with le.
  - induction IH as [|[m q] r H _ IHr]; simpl; auto with le.
Qed.

Lemma le_unset_at p rel : le_p p (unset_at p rel).
Proof.
  unfold unset_at. destruct (get rel p) as [q|] eqn:Hq; auto with le.
  destruct (stored q); auto with le. eapply le_put; eauto using le_set_set.
Qed.

Lemma le_apply_pops rels : forall p, le_p p (apply_pops rels p).
Proof.
  induction rels as [|r rels IH]; intros p; simpl; auto with le.
  eapply le_trans; [apply le_unset_at|apply IH].
Qed.

Lemma le_pop_value p v q : pop_value p = Some (v, q) -> le_p p q.
Proof.
  unfold pop_value. destruct (get_value p); intros H; inversion H; subst. apply le_set_set.
Qed.

Lemma le_set_values E ms : forall ms' r, set_values E ms = (ms', r) -> le_ms ms ms'.
Proof.
  induction ms as [|[m p] r IH]; simpl; intros ms' x H; [inversion H; auto with le|].
  destruct (set_values E r) as [r' y] eqn:Hy. specialize (IH _ _ eq_refl).
  destruct y as [e|vs]; [inversion H; subst; auto with le|].
  destruct (is_set p).
  - destruct (pop_value p) as [[v p']|] eqn:Hp; [destruct (e_store E v)|]; inversion H; subst; auto with le;
      constructor; auto; eapply le_pop_value; eauto.
  - destruct (m_opt m); [destruct (m_def m) as [d|]; [destruct (e_store E d)|]|]; inversion H; subst; auto with le.
Qed.

Lemma le_uni_set_value E cur ms : forall ms' r, uni_set_value E cur ms = (ms', r) -> le_ms ms ms'.
Proof.
  unfold uni_set_value. intros ms' x H.
  destruct (nth_error ms cur) as [[m p]|] eqn:Hn; [|inversion H; auto with le].
  destruct (is_set p).
  - destruct (pop_value p) as [[v p']|] eqn:Hp; inversion H; subst; auto with le.
    eapply le_set_mem; eauto. simpl. eapply le_pop_value; eauto.
  - destruct (m_opt m); [destruct (m_def m)|]; inversion H; subst; auto with le.
Qed.

(** ** Attached parsers *)

(** The object and everything setDispatcher reaches point to the live dispatcher. *)
Fixpoint att (p : parser) : Prop :=
  match p with
  | PVal b _ _ _ | PArr b _ _ _ _ _ => b_disp b = Some g
  | PMap b _ _ _ e _ _ => b_disp b = Some g /\ att e
  | PObj b _ _ ms ig _ _ | PUni b _ _ _ _ _ ms ig _ =>
      b_disp b = Some g /\ b_disp (ig_b ig) = Some g /\
      (fix all (ms : list (mspec * parser)) : Prop :=
         match ms with [] => True | mp :: r => att (snd mp) /\ all r end) ms
  | PIgn i => b_disp (ig_b i) = Some g
  end.

Fixpoint att_ms (ms : list (mspec * parser)) : Prop :=
  match ms with [] => True | mp :: r => att (snd mp) /\ att_ms r end.

Lemma att_disp p : att p -> disp_of p = Some g.
Proof. destruct p; unfold disp_of; simpl; tauto. Qed.

Lemma att_nth ms n mp : att_ms ms -> nth_error ms n = Some mp -> att (snd mp).
Proof.
  revert n; induction ms as [|x r IH]; intros [|n] H Hn; simpl in *; try discriminate.
  - inversion Hn; subst; tauto.
  - eapply IH; eauto; tauto.
Qed.

(** No dispatcher pointer dangles. *)
Definition okb (b : base) : Prop := b_disp b = None \/ b_disp b = Some g.

Fixpoint okd (p : parser) : Prop :=
  match p with
  | PVal b _ _ _ => okb b
  | PArr b _ _ _ e _ => okb b /\ okd e
  | PMap b _ _ _ e _ _ => okb b /\ okd e
  | PObj b _ _ ms ig _ _ | PUni b _ _ _ _ _ ms ig _ =>
      okb b /\ okb (ig_b ig) /\
      (fix all (ms : list (mspec * parser)) : Prop :=
         match ms with [] => True | mp :: r => okd (snd mp) /\ all r end) ms
  | PIgn i => okb (ig_b i)
  end.

Fixpoint okd_ms (ms : list (mspec * parser)) : Prop :=
  match ms with [] => True | mp :: r => okd (snd mp) /\ okd_ms r end.

Lemma le_att_mut :
  (forall p q, le_p p q -> att p -> att q) /\
  (forall p q, le_ms p q -> att_ms p -> att_ms q).
Proof.
  apply le_mut; unfold le_i, le_b; simpl; fold att_ms; intros; intuition (try congruence).
Qed.
Lemma le_att p q : le_p p q -> att p -> att q.
Proof. apply (proj1 le_att_mut). Qed.

Lemma le_okb b1 b2 : le_b b1 b2 -> okb b1 -> okb b2.
Proof. unfold le_b, okb; intros [->|H]; auto. Qed.

Lemma le_okd_mut :
  (forall p q, le_p p q -> okd p -> okd q) /\
  (forall p q, le_ms p q -> okd_ms p -> okd_ms q).
Proof.
  apply le_mut; unfold le_i; simpl; fold okd_ms; intros;
    repeat match goal with H : _ /\ _ |- _ => destruct H end;
    repeat split; eauto using le_okb.
Qed.
Lemma le_okd p q : le_p p q -> okd p -> okd q.
Proof. apply (proj1 le_okd_mut). Qed.

Lemma okd_disp p : okd p -> disp_of p = None \/ disp_of p = Some g.
Proof. destruct p; unfold disp_of; simpl; unfold okb; tauto. Qed.

Lemma okd_nth ms n mp : okd_ms ms -> nth_error ms n = Some mp -> okd (snd mp).
Proof.
  revert n; induction ms as [|x r IH]; intros [|n] H Hn; simpl in *; try discriminate.
  - inversion Hn; subst; tauto.
  - eapply IH; eauto; tauto.
Qed.

Lemma okd_child p st c : okd p -> child p st = Some c -> okd c.
Proof.
  destruct p, st; simpl; fold okd_ms; intros H Hc; try discriminate;
    try (inversion Hc; subst; simpl; tauto).
  - destruct (nth_error ms n) as [mp|] eqn:Hn; try discriminate. inversion Hc; subst.
    eapply okd_nth; eauto; tauto.
  - destruct (nth_error ms n) as [mp|] eqn:Hn; try discriminate. inversion Hc; subst.
    eapply okd_nth; eauto; tauto.
Qed.

Lemma okd_get pi : forall p c, okd p -> get pi p = Some c -> okd c.
Proof.
  induction pi as [|st pi IH]; simpl; intros p c H Hc; [inversion Hc; subst; auto|].
  destruct (child p st) as [x|] eqn:Hx; try discriminate. eauto using okd_child.
Qed.

Lemma att_set_disp p : att (set_disp (Some g) p).
Proof.
  induction p as [| | ? ? ? ? ? ? ? IH | ? ? ? ? ? ? ? IH | ? ? ? ? ? ? ? ? ? IH |]
    using parser_ind'; simpl; auto; fold att_ms; repeat split; auto.
  - induction IH as [|[m q] r H _ IHr]; simpl; auto.
  - induction IH as [|[m q] r H _ IHr]; simpl; auto.
Qed.

(** ** The invariant *)
Section Inv.
Variable E : env.
Variable sch : schema.
Hypothesis Hsch : no_arr_uni sch = true.

Definition att_at (T : parser) (pi : path) : Prop := exists p, get pi T = Some p /\ att p.

Record inv (s : mstate) : Prop := {
  inv_schema : schema_of (m_root s) = sch;
  inv_okd : okd (m_root s);
  inv_root : att (m_root s);
  inv_stack : Forall (att_at (m_root s)) (m_stack s)
}.

Lemma att_at_le T T' pi : le_p T T' -> att_at T pi -> att_at T' pi.
Proof.
  intros H (p & Hg & Ha). destruct (le_get _ H Hg) as (q & Hq & Hle).
  exists q; split; auto. eapply le_att; eauto.
Qed.

Lemma inv_le s s' :
  inv s -> le_p (m_root s) (m_root s') -> Forall (att_at (m_root s')) (m_stack s') -> inv s'.
Proof.
  intros [H1 H2 H3 H4] Hle Hs. split; auto.
  - rewrite <- H1. symmetry. apply le_schema; auto.
  - eapply le_okd; eauto.
  - eapply le_att; eauto.
Qed.

Lemma inv_le_stack s s' :
  inv s -> le_p (m_root s) (m_root s') -> m_stack s' = m_stack s -> inv s'.
Proof.
  intros H Hle Hs. eapply inv_le; eauto. rewrite Hs.
  eapply Forall_impl; [|apply (inv_stack H)]. intros; eapply att_at_le; eauto.
Qed.

(** What every call guarantees. *)
Definition safe (s : mstate) (r : res) : Prop :=
  match r with
  | ROk s' | RThrow _ s' => inv s' /\ le_p (m_root s) (m_root s')
  | RUB _ => False
  | RFuel => True
  end.

Lemma safe_trans s s1 r : le_p (m_root s) (m_root s1) -> safe s1 r -> safe s r.
Proof. destruct r; simpl; intuition eauto using le_trans. Qed.

Lemma safe_bind s r k :
  safe s r -> (forall s', inv s' -> le_p (m_root s) (m_root s') -> safe s' (k s')) ->
  safe s (bind r k).
Proof.
  destruct r; simpl; auto. intros [H1 H2] Hk. eapply safe_trans; eauto.
Qed.

Lemma safe_at s pi k p0 :
  get pi (m_root s) = Some p0 -> safe s (k p0) -> safe s (at_node s pi k).
Proof. unfold at_node; intros ->; auto. Qed.

Lemma inv_upd s pi p q : inv s -> get pi (m_root s) = Some p -> le_p p q ->
  inv (upd s pi q) /\ le_p (m_root s) (m_root (upd s pi q)) /\
  get pi (m_root (upd s pi q)) = Some q.
Proof.
  intros Hi Hg Hle.
  assert (le_p (m_root s) (m_root (upd s pi q))) by (simpl; eapply le_put; eauto).
  repeat split; auto.
  - eapply inv_le_stack; eauto.
  - eapply inv_le_stack; eauto.
  - eapply inv_le_stack; eauto.
  - eapply (inv_stack (s := upd s pi q)). eapply inv_le_stack; eauto.
  - simpl. eapply get_put_same; eauto using le_kind.
Qed.

Definition eff_ok (eff : cbout -> mstate -> mstate) : Prop :=
  forall o s, m_stack (eff o s) = m_stack s /\ le_p (m_root s) (m_root (eff o s)).

Lemma safe_run_cb c a eff msg s : eff_ok eff -> inv s -> safe s (run_cb E c a eff msg s).
Proof.
  intros He Hi. unfold run_cb. destruct c as [c|]; simpl; auto with le.
  set (o := e_cb E c (m_log s) (m_root s) a). set (s0 := add_log s _).
  assert (H : inv (away (co_away o) (eff o s0)) /\ le_p (m_root s) (m_root (away (co_away o) (eff o s0)))).
  { destruct (He o s0) as [H1 H2].
    assert (H3 : le_p (m_root s) (m_root (away (co_away o) (eff o s0))))
      by (rewrite away_root; eapply le_trans; [exact H2|apply le_apply_pops]).
    split; auto. eapply inv_le_stack; eauto. rewrite away_stack. auto. }
  destruct (co_res o); simpl; auto.
Qed.

Lemma eff_no : eff_ok no_eff.
Proof. split; auto with le. Qed.

Lemma eff_pops pi : eff_ok (pops_eff pi).
Proof.
  intros o s; unfold pops_eff. destruct (get pi (m_root s)) as [p|] eqn:Hg; auto with le.
  split; auto. simpl. eapply le_put; eauto using le_apply_pops.
Qed.

Lemma eff_cust pi : eff_ok (cust_eff pi).
Proof.
  intros o s; unfold cust_eff. destruct (get pi (m_root s)) as [p|] eqn:Hg; auto with le.
  destruct p; auto with le. split; auto. simpl. eapply le_put; eauto.
  eapply le_trans; [|apply le_apply_pops]. auto with le.
Qed.
Hint Resolve eff_no eff_pops eff_cust : le.

Lemma safe_finish pi s p : inv s -> get pi (m_root s) = Some p -> safe s (finish E pi s).
Proof.
  intros Hi Hg. unfold finish. eapply safe_at; eauto.
  assert (Hu : forall q e, le_p p q -> safe s (RThrow e (upd s pi q))).
  { intros q e Hle. destruct (inv_upd _ Hi Hg Hle) as (? & ? & _). simpl; auto. }
  assert (Hu' : forall q, le_p p q -> safe s (ROk (upd s pi q))).
  { intros q Hle. destruct (inv_upd _ Hi Hg Hle) as (? & ? & _). simpl; auto. }
  assert (Hr : forall q c a eff msg, le_p p q -> eff_ok eff -> safe s (run_cb E c a eff msg (upd s pi q))).
  { intros q c a eff msg Hle He. destruct (inv_upd _ Hi Hg Hle) as (? & ? & _).
    eapply safe_trans; eauto using safe_run_cb. }
  destruct p.
  - apply safe_run_cb; auto with le.
  - destruct store; apply safe_run_cb; auto with le.
  - apply safe_run_cb; auto with le.
  - destruct (b_empty b); [apply Hu', le_set_set|]. destruct k.
    + destruct (check_members _ _); [apply Hu, le_set_set|apply safe_run_cb; auto with le].
    + destruct (set_values E ms) as [ms' [e|vs]] eqn:Hv; apply le_set_values in Hv.
      * apply Hu. eapply le_trans; [|apply le_set_set]. auto with le.
      * apply Hr; auto with le.
    + destruct (check_members _ _); [apply Hu, le_set_set|apply safe_run_cb; auto with le].
  - destruct (b_empty b); [apply Hu', le_set_set|]. destruct store.
    + destruct (uni_set_value E cur ms) as [ms' [e|vs]] eqn:Hv; apply le_uni_set_value in Hv.
      * apply Hu. eapply le_trans; [|apply le_set_set]. auto with le.
      * apply Hr; auto with le.
    + destruct (uni_check _ _); [apply Hu, le_set_set|apply safe_run_cb; auto with le].
  - simpl; auto with le.
Qed.

(** Preconditions of the calls. *)
Definition is_uni (p : parser) : bool :=
  match p with PUni _ _ _ _ _ _ _ _ _ => true | _ => false end.

Definition soft (t : token) : Prop :=
  match t with TNull | TSc _ => True | _ => False end.

Definition pre (c : call) (s : mstate) : Prop :=
  match c with
  | CPop | CDisp _ => True
  | COn pi t => exists p, get pi (m_root s) = Some p /\ (att p \/ (soft t /\ is_uni p = false))
  | CEnd pi => exists p, get pi (m_root s) = Some p
  | CChild pi => exists p, get pi (m_root s) = Some p /\ (att p \/ is_uni p = false)
  end.

(** The element of an array is never a union. *)
Lemma no_uni_child s pi p :
  inv s -> get pi (m_root s) = Some p ->
  no_arr_uni (schema_of p) = true.
Proof.
  intros Hi. assert (H : no_arr_uni (schema_of (m_root s)) = true)
    by (rewrite (inv_schema Hi); auto).
  revert H. generalize (m_root s). clear Hi. induction pi as [|st pi IH]; simpl; intros T H Hg.
  - inversion Hg; subst; auto.
  - destruct (child T st) as [c|] eqn:Hc; try discriminate. apply (IH c); auto.
    destruct T, st; simpl in *; try discriminate; try (inversion Hc; subst; auto; fail).
    + inversion Hc; subst. apply andb_prop in H; tauto.
    + destruct (nth_error ms n) as [mp|] eqn:Hn; try discriminate. inversion Hc; subst.
      rewrite forallb_map in H. rewrite forallb_forall in H. apply nth_error_In in Hn.
      apply (H _ Hn).
    + destruct (nth_error ms n) as [mp|] eqn:Hn; try discriminate. inversion Hc; subst.
      rewrite forallb_map in H. rewrite forallb_forall in H. apply nth_error_In in Hn.
      apply (H _ Hn).
Qed.

Lemma elem_not_uni s pi b sd st vals e cb :
  inv s -> get pi (m_root s) = Some (PArr b sd st vals e cb) -> is_uni e = false.
Proof.
  intros Hi Hg. pose proof (no_uni_child _ Hi Hg) as H. simpl in H.
  destruct e; simpl in *; auto; discriminate.
Qed.

Lemma deref_g r : deref g (Some g) r = r.
Proof. simpl. rewrite Nat.eqb_refl; auto. Qed.

Lemma pop_if_disp_safe rec d s :
  (d = None \/ d = Some g) -> inv s -> safe s (rec CPop s) -> safe s (pop_if_disp g rec d s).
Proof.
  intros [->| ->] Hi H; simpl; auto with le. rewrite Nat.eqb_refl; auto.
Qed.

Lemma inv_push s pi p : inv s -> get pi (m_root s) = Some p -> att p -> inv (push s pi).
Proof.
  intros Hi Hg Ha. eapply inv_le; eauto with le. simpl. constructor.
  - exists p; auto.
  - apply (inv_stack Hi).
Qed.

Lemma lookup_nth A nm (ms : list (mspec * A)) i :
  lookup nm ms = Some i -> exists mp, nth_error ms i = Some mp.
Proof.
  revert i; induction ms as [|[m a] r IH]; simpl; intros i H; try discriminate.
  destruct (name_eqb _ _); [inversion H; subst; simpl; eauto|].
  destruct (lookup nm r); inversion H; subst. simpl. auto.
Qed.

Lemma safe_on_member pi p ms ign nm s :
  inv s -> get pi (m_root s) = Some p -> att p ->
  (exists b k v ig i cb, p = PObj b k v ms ig i cb) \/
  (exists b st v t tm cur ig cb, p = PUni b st v t tm cur ms ig cb) ->
  safe s (on_member E g pi p ms ign nm s).
Proof.
  intros Hi Hg Ha Hp. unfold on_member.
  assert (Hle : le_p p (set_not_empty p)) by apply le_set_not_empty.
  destruct (inv_upd _ Hi Hg Hle) as (Hi1 & Hle1 & Hg1).
  rewrite (att_disp _ Ha).
  assert (Hm : forall st c, child (set_not_empty p) st = Some c -> att c ->
     safe s (ROk (push (upd s pi (set_not_empty p)) (pi ++ [st])))).
  { intros st c Hc Hac. simpl. split; auto. eapply inv_push; eauto.
    erewrite get_child_at by eauto. auto. }
  destruct (lookup nm ms) as [i|] eqn:Hl.
  - rewrite deref_g. destruct (lookup_nth _ _ Hl) as [mp Hn].
    apply (Hm (Mem i) (snd mp)).
    + destruct Hp as [(b&k&v&ig&ii&cb&->)|(b&st&v&t&tm&cur&ig&cb&->)]; simpl; rewrite Hn; auto.
    + destruct Hp as [(b&k&v&ig&ii&cb&->)|(b&st&v&t&tm&cur&ig&cb&->)]; simpl in Ha;
        fold att_ms in Ha; eapply att_nth; eauto; tauto.
  - destruct ign; [rewrite deref_g|simpl; auto].
    destruct Hp as [(b&k&v&ig&ii&cb&->)|(b&st&v&t&tm&cur&ig&cb&->)]; simpl in Ha;
      apply (Hm Ign (PIgn ig)); simpl; tauto.
Qed.

Lemma call_body_safe rec :
  (forall c s, inv s -> pre c s -> safe s (rec c s)) ->
  forall c s, inv s -> pre c s -> safe s (call_body E g rec c s).
Proof.
  intros IH c s Hi Hp.
  assert (Hpop : forall s, inv s -> safe s (rec CPop s))
    by (intros; apply IH; simpl; auto).
  assert (Hend : forall s pi q, inv s -> get pi (m_root s) = Some q -> safe s (rec (CEnd pi) s))
    by (intros; apply IH; simpl; eauto).
  assert (Hnull : forall s pi p, inv s -> get pi (m_root s) = Some p -> safe s (on_null g (rec) pi p s)).
  { intros s0 pi p Hi0 Hg. unfold on_null.
    destruct (inv_upd _ Hi0 Hg (le_reset p)) as (H1 & H2 & H3).
    eapply safe_trans; eauto. apply pop_if_disp_safe; auto.
    apply okd_disp. eapply okd_get; eauto. apply (inv_okd Hi0). }
  assert (Hup : forall pi p q, get pi (m_root s) = Some p -> le_p p q -> safe s (ROk (upd s pi q))).
  { intros pi p q Hg Hle. destruct (inv_upd _ Hi Hg Hle) as (? & ? & _). simpl; auto. }
  assert (Hthrow : forall e, safe s (RThrow e s)) by (simpl; auto with le).
  destruct c as [|t|pi t|pi|pi]; cbn [call_body].
  - (* CPop *)
    unfold body_pop. destruct (m_stack s) as [|q r] eqn:Hs; [auto with le|].
    pose proof (inv_stack Hi) as Hst. rewrite Hs in Hst. inversion Hst; subst.
    assert (Hi1 : inv (set_stack s r)) by (eapply inv_le; eauto with le).
    destruct r as [|q' r']; [simpl; auto with le|].
    eapply safe_trans with (s1 := set_stack s (q' :: r')); [auto with le|].
    apply IH; auto. inversion H2; subst. destruct H3 as (p & Hg & Ha). simpl; eauto.
  - (* CDisp *)
    unfold body_disp. destruct (m_stack s) as [|q r] eqn:Hs; [auto with le|].
    apply IH; auto. pose proof (inv_stack Hi) as Hst. rewrite Hs in Hst. inversion Hst; subst.
    destruct H1 as (p & Hg & Ha). simpl; eauto.
  - (* COn *)
    destruct Hp as (p & Hg & Ha). unfold body_on. eapply safe_at; eauto.
    destruct p.
    + (* value *)
      unfold on_val. destruct t; try apply Hthrow; [apply Hnull; auto|].
      destruct (takes_scalar _ _); [|apply Hthrow].
      set (q := PVal _ _ _ _).
      assert (Hle : le_p (PVal b t0 v cb) q) by (constructor; left; auto).
      destruct (inv_upd _ Hi Hg Hle) as (H1 & H2 & H3).
      eapply safe_trans; eauto.
    + (* array *)
      assert (Hu : is_uni p = false) by (eapply elem_not_uni; eauto).
      assert (He : get (pi ++ [Elem]) (m_root s) = Some p)
        by (erewrite get_child_at by eauto; reflexivity).
      assert (Henter : forall t, att (PArr b started store vals p cb) ->
                safe s (arr_enter g (rec) pi (PArr b started store vals p cb) t s)).
      { intros t' Ha'. unfold arr_enter. simpl in Ha'. rewrite Ha', deref_g.
        set (q := set_not_empty _).
        assert (Hle : le_p (PArr b started store vals p cb) q).
        { unfold q. eapply le_trans; [|apply le_set_not_empty].
          constructor; auto using le_set_disp with le. }
        destruct (inv_upd _ Hi Hg Hle) as (H1 & H2 & H3).
        assert (Hge : get (pi ++ [Elem]) (m_root (upd s pi q)) = Some (set_disp (Some g) p))
          by (erewrite get_child_at by eauto; reflexivity).
        eapply safe_trans with (s1 := push (upd s pi q) (pi ++ [Elem])); [auto|].
        apply IH.
        - eapply inv_push; eauto using att_set_disp.
        - simpl. exists (set_disp (Some g) p). auto using att_set_disp. }
      unfold on_arr. destruct t; try apply Hthrow.
      * destruct started; [|apply Hnull; auto]. apply IH; auto. simpl. eauto.
      * destruct started; [|apply Hthrow]. apply safe_bind.
        { apply IH; auto. simpl; eauto. }
        intros s' Hi' Hle'. destruct (le_get _ Hle' Hg) as (q & Hq & Hlq).
        eapply safe_at; eauto.
        destruct (inv_upd _ Hi' Hq (le_set_not_empty q)) as (H1 & H2 & H3).
        eapply safe_trans; eauto. apply IH; auto. simpl.
        exists (set_not_empty q). split; auto. right. inversion Hlq; subst; auto.
      * destruct started; [|apply Hthrow]. apply Henter. destruct Ha as [Ha|[[] _]]; auto.
      * destruct started.
        { apply Henter. destruct Ha as [Ha|[[] _]]; auto. }
        simpl. eapply Hup; eauto. constructor; auto using le_reset with le. left; auto.
      * set (q := PArr _ _ _ _ _ _).
        assert (Hle : le_p (PArr b started store vals p cb) q) by (constructor; auto with le).
        destruct (inv_upd _ Hi Hg Hle) as (H1 & H2 & H3). eapply safe_trans; eauto.
    + (* map *)
      unfold on_map. destruct t; try apply Hthrow.
      * apply Hnull; auto.
      * eapply Hup; eauto using le_reset.
      * assert (Ha' : att (PMap b store key vals p ecb cb)) by (destruct Ha as [Ha|[[] _]]; auto).
        simpl in Ha'. destruct Ha' as [Hd Hae]. rewrite Hd, deref_g.
        set (q := set_not_empty _).
        assert (Hle : le_p (PMap b store key vals p ecb cb) q).
        { unfold q. eapply le_trans; [|apply le_set_not_empty]. constructor; auto with le. }
        destruct (inv_upd _ Hi Hg Hle) as (H1 & H2 & H3).
        simpl. split; auto. eapply inv_push; eauto. erewrite get_child_at by eauto. reflexivity.
      * eapply Hend; eauto.
    + (* object *)
      unfold on_obj. destruct t; try apply Hthrow.
      * apply Hnull; auto.
      * eapply Hup; eauto using le_reset.
      * apply safe_on_member; auto.
        -- destruct Ha as [Ha|[[] _]]; auto.
        -- left; repeat eexists.
      * eapply Hend; eauto.
    + (* union *)
      assert (Ha' : att (PUni b store v t0 tm cur ms ig cb)).
      { destruct Ha as [Ha|[_ Ha]]; [auto|discriminate]. }
      unfold on_uni. destruct t; try apply Hthrow.
      * apply Hnull; auto.
      * destruct (takes_scalar _ _); [|apply Hthrow].
        set (q := reset _).
        assert (Hle : le_p (PUni b store v t0 tm cur ms ig cb) q) by apply le_reset.
        destruct (inv_upd _ Hi Hg Hle) as (H1 & H2 & H3).
        eapply safe_trans; eauto. apply safe_bind.
        { assert (Hms : exists ms', q = PUni (reset_base b) store (if store then dflt (PUni b store v t0 tm cur ms ig cb) else v) t0 tm 0 ms' (reset_ig ig) cb
                     /\ forall x, lookup x ms' = lookup x ms).
          { eexists; split; [reflexivity|]. intros y. clear.
            induction ms as [|[m a] r IH]; simpl; auto. rewrite IH; auto. }
          destruct Hms as (ms' & Hq & Hl).
          replace (on_member E g pi q ms false x (upd s pi q))
            with (on_member E g pi q ms' false x (upd s pi q))
            by (unfold on_member; rewrite Hl; auto).
          apply safe_on_member; auto.
          - eapply le_att; eauto.
          - right. rewrite Hq. repeat eexists. }
        intros s' Hi' Hle'. destruct (le_get _ Hle' H3) as (q' & Hq' & Hlq').
        eapply safe_at; eauto. destruct q'; try (simpl; auto with le; fail).
        destruct (lookup x ms); [|simpl; auto with le].
        assert (Hle2 : le_p (PUni b0 store0 v0 t tm0 cur0 ms0 ig0 cb0) (PUni b0 store0 v0 t tm0 n ms0 ig0 cb0))
          by (constructor; auto with le).
        destruct (inv_upd _ Hi' Hq' Hle2) as (? & ? & ?). simpl; auto.
      * destruct (String.eqb _ _); [apply Hthrow|]. eapply Hup; eauto using le_reset.
      * destruct (String.eqb _ _); [apply Hthrow|]. destruct (String.eqb _ _); [|apply Hthrow].
        simpl; auto with le.
      * eapply Hend; eauto.
    + (* ignore *)
      assert (Hst' : forall r, inv (upd s pi (PIgn (mkI (ig_b i) r))) /\
         safe s (rec (CEnd pi) (upd s pi (PIgn (mkI (ig_b i) r)))) /\
         safe s (ROk (upd s pi (PIgn (mkI (ig_b i) r))))).
      { intros r. assert (Hle : le_p (PIgn i) (PIgn (mkI (ig_b i) r))) by (constructor; left; auto).
        destruct (inv_upd _ Hi Hg Hle) as (H1 & H2 & H3). split; auto. split.
        - eapply safe_trans; eauto.
        - simpl; auto. }
      unfold on_ign. destruct t; try apply Hthrow.
      * apply Hnull; auto.
      * destruct (ig_st i); [eapply Hend; eauto|simpl; auto with le].
      * apply Hst'.
      * destruct (ig_st i) as [|[] r]; first [exact (Hthrow _) | simpl; auto with le].
      * destruct (ig_st i) as [|[] r]; try apply Hthrow. destruct r; apply Hst'.
      * apply Hst'.
      * destruct (ig_st i) as [|[] r]; try apply Hthrow. destruct r; apply Hst'.
  - (* CEnd *)
    destruct Hp as (p & Hg). unfold body_end. eapply safe_at; eauto.
    destruct (inv_upd _ Hi Hg (le_set_set true p)) as (H1 & H2 & H3).
    eapply safe_trans; eauto. apply safe_bind.
    { eapply safe_finish; eauto. }
    intros s' Hi' Hle'. destruct (le_get _ Hle' H3) as (q & Hq & Hlq).
    eapply safe_at; eauto. apply pop_if_disp_safe; auto.
    apply okd_disp. eapply okd_get; eauto. apply (inv_okd Hi').
  - (* CChild *)
    destruct Hp as (p & Hg & Ha). unfold body_child. eapply safe_at; eauto.
    destruct p; try (simpl; auto with le; fail).
    + destruct store; [|simpl; auto with le].
      destruct (pop_value p) as [[v e']|] eqn:Hv; [|apply Hthrow].
      destruct (e_store E v); (eapply Hup; [eauto|constructor; auto with le; eapply le_pop_value; eauto]).
    + apply safe_bind.
      { apply safe_run_cb; auto with le. }
      intros s' Hi' Hle'. destruct store; [|simpl; auto with le].
      destruct (le_get _ Hle' Hg) as (q & Hq & Hlq).
      eapply safe_at; eauto. destruct q; try (simpl; auto with le; fail).
      destruct (pop_value q) as [[v e']|] eqn:Hv; [|simpl; auto with le].
      assert (Hle2 : forall vals', le_p (PMap b0 store key0 vals0 q ecb0 cb0)
                          (PMap b0 store key0 vals' e' ecb0 cb0)).
      { intros vals'. constructor; auto with le. eapply le_pop_value; eauto. }
      destruct (e_store E v);
        match goal with |- context [PMap b0 store key0 ?w e' ecb0 cb0] =>
          destruct (inv_upd _ Hi' Hq (Hle2 w)) as (? & ? & ?); simpl; auto end.
    + destruct Ha as [Ha|Ha]; [|discriminate].
      apply safe_bind; [eapply Hend; eauto|].
      intros s' Hi' Hle'. destruct (String.eqb _ _); [|simpl; auto with le].
      destruct (le_get _ Hle' Hg) as (q & Hq & Hlq).
      eapply safe_at; eauto.
      assert (Haq : att q) by (eapply le_att; eauto).
      rewrite (att_disp _ Haq), deref_g. apply IH; simpl; auto.
Qed.

(** A failed allocation leaves a tree that differs in run-time state only. *)
Lemma fault_le c s s' :
  pre c s -> In s' (faults g c s) ->
  exists pi t p q, c = COn pi t /\ get pi (m_root s) = Some p /\ le_p p q /\
    (s' = upd s pi q \/ exists st c', child q st = Some c' /\ att c' /\ s' = push (upd s pi q) (pi ++ [st])).
Proof.
  intros Hp Hin.
  destruct c as [|t|pi t|pi|pi]; try contradiction. destruct Hp as (p & Hg & Ha).
  assert (Hup : forall p' q, p' = p -> le_p p' q -> upd s pi q = s' -> exists pi0 t0 p0 q0, COn pi t = COn pi0 t0 /\ get pi0 (m_root s) = Some p0 /\ le_p p0 q0 /\
    (s' = upd s pi0 q0 \/ exists st c', child q0 st = Some c' /\ att c' /\ s' = push (upd s pi0 q0) (pi0 ++ [st]))).
  { intros p' q -> Hle <-. exists pi, t, p, q. auto. }
  assert (Hpush : forall p' q st c', p' = p -> le_p p' q -> child q st = Some c' -> att c' ->
             push (upd s pi q) (pi ++ [st]) = s' -> exists pi0 t0 p0 q0, COn pi t = COn pi0 t0 /\ get pi0 (m_root s) = Some p0 /\ le_p p0 q0 /\
    (s' = upd s pi0 q0 \/ exists st c', child q0 st = Some c' /\ att c' /\ s' = push (upd s pi0 q0) (pi0 ++ [st]))).
  { intros p' q st c' -> Hle Hc Hac <-. exists pi, t, p, q. split; [auto|]. split; [auto|]. split; [auto|]. right. exists st, c'. auto. }
  cbn [faults] in Hin. rewrite Hg in Hin.
  assert (Hne : forall q, le_p p q -> le_p p (set_not_empty q)) by (intros; eapply le_trans; eauto using le_set_not_empty).
  destruct p, t; try contradiction.
  - destruct (takes_scalar _ _); [|contradiction]. destruct Hin as [H|[]]. eapply Hup; eauto. apply Hne, le_refl.
  - destruct started; [|contradiction]. apply in_live in Hin. destruct Hin as [Hd [H|[]]].
    eapply Hup; eauto. apply Hne. rewrite Hd. constructor; auto using le_set_disp with le.
  - destruct started; [|contradiction]. apply in_live in Hin. destruct Hin as [Hd [H|[]]].
    eapply Hup; eauto. apply Hne. rewrite Hd. constructor; auto using le_set_disp with le.
  - assert (Ha' : att (PMap b store key vals p ecb cb)) by (destruct Ha as [Ha|[[] _]]; auto). simpl in Ha'.
    apply in_live in Hin. destruct Hin as [_ [H|[H|[]]]]; [eapply Hup; eauto; apply Hne, le_refl|].
    eapply Hpush; eauto; [apply Hne, le_refl|reflexivity|tauto].
  - destruct Hin as [H|[]]. eapply Hup; eauto. apply Hne, le_refl.
  - assert (Ha' : att (PUni b store v t0 tm cur ms ig cb)) by (destruct Ha as [Ha|[_ Ha]]; [auto|discriminate]).
    set (q := reset (PUni b store v t0 tm cur ms ig cb)) in *.
    assert (Hle : le_p (PUni b store v t0 tm cur ms ig cb) (set_not_empty q)) by apply Hne, le_reset.
    destruct (takes_scalar _ _); [|contradiction].
    destruct (lookup x ms) as [i|] eqn:Hl; [|destruct Hin as [H|[]]; eapply Hup; eauto].
    destruct Hin as [H|Hin]; [eapply Hup; eauto|]. apply in_live in Hin. destruct Hin as [_ [H|[]]].
    destruct (lookup_nth _ _ Hl) as [mp Hn].
    destruct (@le_child _ (set_not_empty q) (Mem i) (snd mp) Hle) as (d & Hd & Hld); [simpl; rewrite Hn; auto|].
    eapply Hpush; eauto. eapply le_att; eauto. simpl in Ha'. fold att_ms in Ha'. eapply att_nth; eauto; tauto.
  - destruct Hin as [<-|[]]. eapply Hup; eauto with le. destruct s; unfold upd; simpl in *. rewrite (put_same _ _ Hg). auto.
  - destruct Hin as [<-|[]]. eapply Hup; eauto with le. destruct s; unfold upd; simpl in *. rewrite (put_same _ _ Hg). auto.
Qed.

Lemma safe_fault c s x s' :
  inv s -> pre c s -> In s' (faults g c s) -> safe s (RThrow x s').
Proof.
  intros Hi Hp Hin.
  destruct (fault_le _ _ _ Hp Hin) as (pi & t & p & q & _ & Hg & Hle & H).
  destruct (inv_upd _ Hi Hg Hle) as (H1 & H2 & H3).
  destruct H as [->|(st & c' & Hc & Ha & ->)]; simpl; auto. split; auto.
  eapply inv_push; eauto. erewrite get_child_at by eauto. auto.
Qed.
End Inv.

Section All.
Variable E : env.
Variable sch : schema.
Hypothesis Hsch : no_arr_uni sch = true.

Lemma exec_safe f : forall c s, inv sch s -> pre c s -> safe sch s (exec E g f c s).
Proof.
  induction f as [|f IH]; intros c s Hi Hp; [simpl; auto|]. cbn [exec]. apply body_cases.
  - intros E' _ _ _. apply call_body_safe; auto.
  - intros x s' H. eapply safe_fault; eauto.
Qed.

Lemma dispatch_safe t s : inv sch s -> safe sch s (dispatch E g t s).
Proof. intros; apply exec_safe; simpl; auto. Qed.

Lemma run_safe ts : forall s, inv sch s -> safe sch s (run E g ts s).
Proof.
  induction ts as [|t ts IH]; simpl; intros s Hi; [simpl; auto using le_refl|].
  apply safe_bind; auto using dispatch_safe.
Qed.

Lemma inv_reset s : inv sch s -> inv sch (dispatcher_reset s).
Proof.
  intros Hi. eapply inv_le; eauto using le_refl. simpl. constructor; auto.
  exists (m_root s). split; auto. apply (inv_root Hi).
Qed.
End All.

(** ** Attaching a dispatcher *)
Lemma okd_mk s : okd (mk s).
Proof.
  assert (Hb : okb base0) by (left; auto).
  induction s as [| | | ? ? ? ? IH | ? ? ? ? ? IH |] using schema_ind'; simpl; auto; fold okd_ms;
    repeat split; auto.
  - induction IH as [|mp r H _ IHr]; simpl; auto.
  - induction IH as [|mp r H _ IHr]; simpl; auto.
Qed.

Lemma okd_set_disp p : okd p -> okd (set_disp (Some g) p).
Proof. apply le_okd, le_set_disp. Qed.

Lemma schema_set_disp p : schema_of (set_disp (Some g) p) = schema_of p.
Proof. symmetry; apply le_schema, le_set_disp. Qed.

Lemma inv_attach p l : okd p -> inv (schema_of p) (attach g p l).
Proof.
  intros H. split; simpl.
  - apply schema_set_disp.
  - apply okd_set_disp; auto.
  - apply att_set_disp.
  - constructor; auto. eexists; split; [reflexivity|]. apply att_set_disp.
Qed.
End Safe.

Lemma schema_mk s : schema_of (mk s) = s.
Proof.
  induction s as [| | | ? ? ? ? IH | ? ? ? ? ? IH |] using schema_ind'; simpl; try congruence.
  - f_equal. rewrite map_map; simpl. induction IH as [|[m q] r H _ IHr]; simpl; f_equal; auto.
    simpl in H. rewrite H; auto.
  - f_equal. rewrite map_map; simpl. induction IH as [|[m q] r H _ IHr]; simpl; f_equal; auto.
    simpl in H. rewrite H; auto.
Qed.

(** Array-free declarations: setDispatcher reaches every object, so a tree with
    arbitrary old pointers is safe after it. *)
Fixpoint no_arr (s : schema) : bool :=
  match s with
  | SVal _ _ | SIgn => true
  | SArr _ _ _ => false
  | SMp _ e _ _ => no_arr e
  | SObj _ ms _ _ | SUni _ _ _ ms _ => forallb (fun mp => no_arr (snd mp)) ms
  end.

Lemma okd_set_disp_no_arr g p : no_arr (schema_of p) = true -> okd g (set_disp (Some g) p).
Proof.
  assert (Hb : forall b, okb g (disp_base (Some g) b)) by (right; auto).
  induction p as [| | ? ? ? ? ? ? ? IH | ? ? ? ? ? ? ? IH | ? ? ? ? ? ? ? ? ? IH |]
    using parser_ind'; simpl; auto; intros Hn; try discriminate; repeat split; auto;
    rewrite forallb_map in Hn.
  - induction IH as [|[m q] r H _ IHr]; simpl in *; auto. apply andb_prop in Hn. tauto.
  - induction IH as [|[m q] r H _ IHr]; simpl in *; auto. apply andb_prop in Hn. tauto.
Qed.

Lemma no_arr_no_arr_uni s : no_arr s = true -> no_arr_uni s = true.
Proof.
  induction s as [| | | ? ? ? ? IH | ? ? ? ? ? IH |] using schema_ind'; simpl; auto;
    try discriminate; intros Hn; induction IH as [|mp r H _ IHr]; simpl in *; auto;
    apply andb_prop in Hn; rewrite H, IHr; tauto.
Qed.
