(** What holds of every run that does not end in undefined behaviour, even if some
    dispatcher pointers dangle (a parser that was used with another, destroyed Parser
    before): the declaration stays, dispatcher pointers only move to the live
    dispatcher, and the parsers on the stack point to it.  This is Safe.v without the
    assumption that no pointer dangles. *)

From Verif Require Import Model Infra Total Safe.
Set Implicit Arguments.

Section Loose.
Variable g : nat.
Variable E : env.
Variable sch : schema.
Hypothesis Hsch : no_arr_uni sch = true.
Notation le_p := (le_p g).
Notation att := (att g).
Notation att_at := (att_at g).
Notation pre := (pre g).
Notation eff_ok := (eff_ok g).

Local Hint Resolve le_b_refl le_i_refl le_refl le_ms_refl eff_no eff_pops eff_cust : le.
Local Hint Constructors Safe.le_p Safe.le_ms : le.

Record linv (s : mstate) : Prop := {
  linv_schema : schema_of (m_root s) = sch;
  linv_root : att (m_root s);
  linv_stack : Forall (att_at (m_root s)) (m_stack s)
}.

Lemma linv_le s s' :
  linv s -> le_p (m_root s) (m_root s') -> Forall (att_at (m_root s')) (m_stack s') -> linv s'.
Proof.
  intros [H1 H3 H4] Hle Hs. split; auto.
  - rewrite <- H1. symmetry. eapply le_schema; eauto.
  - eapply le_att; eauto.
Qed.

Lemma linv_le_stack s s' :
  linv s -> le_p (m_root s) (m_root s') -> m_stack s' = m_stack s -> linv s'.
Proof.
  intros H Hle Hs. eapply linv_le; eauto. rewrite Hs.
  eapply Forall_impl; [|apply (linv_stack H)]. intros; eapply att_at_le; eauto.
Qed.

(** What every call guarantees. *)
Definition lsafe (s : mstate) (r : res) : Prop :=
  match r with
  | ROk s' | RThrow _ s' => linv s' /\ le_p (m_root s) (m_root s')
  | RUB _ => True
  | RFuel => True
  end.

Lemma lsafe_trans s s1 r : le_p (m_root s) (m_root s1) -> lsafe s1 r -> lsafe s r.
Proof. destruct r; simpl; intuition eauto using le_trans. Qed.

Lemma lsafe_bind s r k :
  lsafe s r -> (forall s', linv s' -> le_p (m_root s) (m_root s') -> lsafe s' (k s')) ->
  lsafe s (bind r k).
Proof.
  destruct r; simpl; auto. intros [H1 H2] Hk. eapply lsafe_trans; eauto.
Qed.

Lemma lsafe_at s pi k p0 :
  get pi (m_root s) = Some p0 -> lsafe s (k p0) -> lsafe s (at_node s pi k).
Proof. unfold at_node; intros ->; auto. Qed.

Lemma linv_upd s pi p q : linv s -> get pi (m_root s) = Some p -> le_p p q ->
  linv (upd s pi q) /\ le_p (m_root s) (m_root (upd s pi q)) /\
  get pi (m_root (upd s pi q)) = Some q.
Proof.
  intros Hi Hg Hle.
  assert (le_p (m_root s) (m_root (upd s pi q))) by (simpl; eapply le_put; eauto).
  split; [eapply linv_le_stack; eauto|]. split; auto.
  - simpl. eapply get_put_same; eauto using le_kind.
Qed.

Lemma lsafe_run_cb c a eff msg s : eff_ok eff -> linv s -> lsafe s (run_cb E c a eff msg s).
Proof.
  intros He Hi. unfold run_cb. destruct c as [c|]; simpl; auto with le.
  set (o := e_cb E c (m_log s) (m_root s) a). set (s0 := add_log s _).
  assert (H : linv (away (co_away o) (eff o s0)) /\ le_p (m_root s) (m_root (away (co_away o) (eff o s0)))).
  { destruct (He o s0) as [H1 H2].
    assert (H3 : le_p (m_root s) (m_root (away (co_away o) (eff o s0))))
      by (rewrite away_root; eapply le_trans; [exact H2|apply le_apply_pops]).
    split; auto. eapply linv_le_stack; eauto. rewrite away_stack. auto. }
  destruct (co_res o); simpl; auto.
Qed.

Lemma lsafe_finish pi s p : linv s -> get pi (m_root s) = Some p -> lsafe s (finish E pi s).
Proof.
  intros Hi Hg. unfold finish. eapply lsafe_at; eauto.
  assert (Hu : forall q e, le_p p q -> lsafe s (RThrow e (upd s pi q))).
  { intros q e Hle. destruct (linv_upd _ Hi Hg Hle) as (? & ? & _). simpl; auto. }
  assert (Hu' : forall q, le_p p q -> lsafe s (ROk (upd s pi q))).
  { intros q Hle. destruct (linv_upd _ Hi Hg Hle) as (? & ? & _). simpl; auto. }
  assert (Hr : forall q c a eff msg, le_p p q -> eff_ok eff -> lsafe s (run_cb E c a eff msg (upd s pi q))).
  { intros q c a eff msg Hle He. destruct (linv_upd _ Hi Hg Hle) as (? & ? & _).
    eapply lsafe_trans; eauto using lsafe_run_cb. }
  destruct p.
  - apply lsafe_run_cb; auto with le.
  - destruct store; apply lsafe_run_cb; auto with le.
  - apply lsafe_run_cb; auto with le.
  - destruct (b_empty b); [apply Hu', le_set_set|]. destruct k.
    + destruct (check_members _ _); [apply Hu, le_set_set|apply lsafe_run_cb; auto with le].
    + destruct (set_values E ms) as [ms' [e|vs]] eqn:Hv; apply (le_set_values g) in Hv.
      * apply Hu. eapply le_trans; [|apply le_set_set]. auto with le.
      * apply Hr; auto with le.
    + destruct (check_members _ _); [apply Hu, le_set_set|apply lsafe_run_cb; auto with le].
  - destruct (b_empty b); [apply Hu', le_set_set|]. destruct store.
    + destruct (uni_set_value E cur ms) as [ms' [e|vs]] eqn:Hv; apply (le_uni_set_value g) in Hv.
      * apply Hu. eapply le_trans; [|apply le_set_set]. auto with le.
      * apply Hr; auto with le.
    + destruct (uni_check _ _); [apply Hu, le_set_set|apply lsafe_run_cb; auto with le].
  - simpl; auto with le.
Qed.

(** The preconditions of the calls are [pre] of Safe.v. *)

(** The element of an array is never a union. *)
Lemma lno_uni_child s pi p :
  linv s -> get pi (m_root s) = Some p ->
  no_arr_uni (schema_of p) = true.
Proof.
  intros Hi. assert (H : no_arr_uni (schema_of (m_root s)) = true)
    by (rewrite (linv_schema Hi); auto).
  revert H. generalize (m_root s). clear Hi. induction pi as [|st pi IH]; simpl; intros T H Hg.
  - inversion Hg; subst; auto.
  - destruct (child T st) as [c|] eqn:Hc; try discriminate. apply (IH c); auto.
    destruct T, st; simpl in *; try discriminate; try (inversion Hc; subst; auto; fail).
    + inversion Hc; subst. apply andb_prop in H; tauto.
    + destruct (nth_error ms n) as [mp|] eqn:Hn; try discriminate. inversion Hc; subst.
      rewrite forallb_map in H. rewrite forallb_forall in H. apply nth_error_In in Hn.
      apply (H _ Hn).
    + destruct (nth_error ms n) as [mp|] eqn:Hn; try discriminate. inversion Hc; subst.
      rewrite forallb_map in H. rewrite forallb_forall in H. apply nth_error_In in Hn.
      apply (H _ Hn).
Qed.

Lemma lelem_not_uni s pi b sd st vals e cb :
  linv s -> get pi (m_root s) = Some (PArr b sd st vals e cb) -> is_uni e = false.
Proof.
  intros Hi Hg. pose proof (lno_uni_child _ Hi Hg) as H. simpl in H.
  destruct e; simpl in *; auto; discriminate.
Qed.

Lemma lpop_if_disp_safe rec d s :
  linv s -> lsafe s (rec CPop s) -> lsafe s (pop_if_disp g rec d s).
Proof.
  intros Hi H. unfold pop_if_disp. destruct d as [x|]; simpl; auto using le_refl.
  destruct (Nat.eqb x g); simpl; auto.
Qed.

Lemma linv_push s pi p : linv s -> get pi (m_root s) = Some p -> att p -> linv (push s pi).
Proof.
  intros Hi Hg Ha. eapply linv_le; eauto with le. simpl. constructor.
  - exists p; auto.
  - apply (linv_stack Hi).
Qed.

Lemma lsafe_on_member pi p ms ign nm s :
  linv s -> get pi (m_root s) = Some p -> att p ->
  (exists b k v ig i cb, p = PObj b k v ms ig i cb) \/
  (exists b st v t tm cur ig cb, p = PUni b st v t tm cur ms ig cb) ->
  lsafe s (on_member E g pi p ms ign nm s).
Proof.
  intros Hi Hg Ha Hp. unfold on_member.
  assert (Hle : le_p p (set_not_empty p)) by apply le_set_not_empty.
  destruct (linv_upd _ Hi Hg Hle) as (Hi1 & Hle1 & Hg1).
  rewrite (att_disp _ _ Ha).
  assert (Hm : forall st c, child (set_not_empty p) st = Some c -> att c ->
     lsafe s (ROk (push (upd s pi (set_not_empty p)) (pi ++ [st])))).
  { intros st c Hc Hac. simpl. split; auto. eapply linv_push; eauto.
    erewrite get_child_at by eauto. auto. }
  destruct (lookup nm ms) as [i|] eqn:Hl.
  - rewrite deref_g. destruct (lookup_nth _ _ Hl) as [mp Hn].
    apply (Hm (Mem i) (snd mp)).
    + destruct Hp as [(b&k&v&ig&ii&cb&->)|(b&st&v&t&tm&cur&ig&cb&->)]; simpl; rewrite Hn; auto.
    + destruct Hp as [(b&k&v&ig&ii&cb&->)|(b&st&v&t&tm&cur&ig&cb&->)]; simpl in Ha;
        fold (att_ms g) in Ha; eapply att_nth; eauto; tauto.
  - destruct ign; [rewrite deref_g|simpl; auto].
    destruct Hp as [(b&k&v&ig&ii&cb&->)|(b&st&v&t&tm&cur&ig&cb&->)]; simpl in Ha;
      apply (Hm Ign (PIgn ig)); simpl; tauto.
Qed.

Lemma lcall_body_safe rec :
  (forall c s, linv s -> pre c s -> lsafe s (rec c s)) ->
  forall c s, linv s -> pre c s -> lsafe s (call_body E g rec c s).
Proof.
  intros IH c s Hi Hp.
  assert (Hpop : forall s, linv s -> lsafe s (rec CPop s))
    by (intros; apply IH; simpl; auto).
  assert (Hend : forall s pi q, linv s -> get pi (m_root s) = Some q -> lsafe s (rec (CEnd pi) s))
    by (intros; apply IH; simpl; eauto).
  assert (Hnull : forall s pi p, linv s -> get pi (m_root s) = Some p -> lsafe s (on_null g (rec) pi p s)).
  { intros s0 pi p Hi0 Hg. unfold on_null.
    destruct (linv_upd _ Hi0 Hg (le_reset g p)) as (H1 & H2 & H3).
    eapply lsafe_trans; eauto. apply lpop_if_disp_safe; auto. }
  assert (Hup : forall pi p q, get pi (m_root s) = Some p -> le_p p q -> lsafe s (ROk (upd s pi q))).
  { intros pi p q Hg Hle. destruct (linv_upd _ Hi Hg Hle) as (? & ? & _). simpl; auto. }
  assert (Hthrow : forall e, lsafe s (RThrow e s)) by (simpl; auto with le).
  destruct c as [|t|pi t|pi|pi]; cbn [call_body].
  - (* CPop *)
    unfold body_pop. destruct (m_stack s) as [|q r] eqn:Hs; [auto with le|].
    pose proof (linv_stack Hi) as Hst. rewrite Hs in Hst. inversion Hst; subst.
    assert (Hi1 : linv (set_stack s r)) by (eapply linv_le; eauto with le).
    destruct r as [|q' r']; [simpl; auto with le|].
    eapply lsafe_trans with (s1 := set_stack s (q' :: r')); [auto with le|].
    apply IH; auto. inversion H2; subst. destruct H3 as (p & Hg & Ha). simpl; eauto.
  - (* CDisp *)
    unfold body_disp. destruct (m_stack s) as [|q r] eqn:Hs; [auto with le|].
    apply IH; auto. pose proof (linv_stack Hi) as Hst. rewrite Hs in Hst. inversion Hst; subst.
    destruct H1 as (p & Hg & Ha). simpl; eauto.
  - (* COn *)
    destruct Hp as (p & Hg & Ha). unfold body_on. eapply lsafe_at; eauto.
    destruct p.
    + (* value *)
      unfold on_val. destruct t; try apply Hthrow; [apply Hnull; auto|].
      destruct (takes_scalar _ _); [|apply Hthrow].
      set (q := PVal _ _ _ _).
      assert (Hle : le_p (PVal b t0 v cb) q) by (constructor; left; auto).
      destruct (linv_upd _ Hi Hg Hle) as (H1 & H2 & H3).
      eapply lsafe_trans; eauto.
    + (* array *)
      assert (Hu : is_uni p = false) by (eapply lelem_not_uni; eauto).
      assert (He : get (pi ++ [Elem]) (m_root s) = Some p)
        by (erewrite get_child_at by eauto; reflexivity).
      assert (Henter : forall t, att (PArr b started store vals p cb) ->
                lsafe s (arr_enter g (rec) pi (PArr b started store vals p cb) t s)).
      { intros t' Ha'. unfold arr_enter. simpl in Ha'. rewrite Ha', deref_g.
        set (q := set_not_empty _).
        assert (Hle : le_p (PArr b started store vals p cb) q).
        { unfold q. eapply le_trans; [|apply le_set_not_empty].
          constructor; auto using le_set_disp with le. }
        destruct (linv_upd _ Hi Hg Hle) as (H1 & H2 & H3).
        assert (Hge : get (pi ++ [Elem]) (m_root (upd s pi q)) = Some (set_disp (Some g) p))
          by (erewrite get_child_at by eauto; reflexivity).
        eapply lsafe_trans with (s1 := push (upd s pi q) (pi ++ [Elem])); [auto|].
        apply IH.
        - eapply linv_push; eauto using att_set_disp.
        - simpl. exists (set_disp (Some g) p). auto using att_set_disp. }
      unfold on_arr. destruct t; try apply Hthrow.
      * destruct started; [|apply Hnull; auto]. apply IH; auto. simpl. eauto.
      * destruct started; [|apply Hthrow]. apply lsafe_bind.
        { apply IH; auto. simpl; eauto. }
        intros s' Hi' Hle'. destruct (le_get _ Hle' Hg) as (q & Hq & Hlq).
        eapply lsafe_at; eauto.
        destruct (linv_upd _ Hi' Hq (le_set_not_empty g q)) as (H1 & H2 & H3).
        eapply lsafe_trans; eauto. apply IH; auto. simpl.
        exists (set_not_empty q). split; auto. right. inversion Hlq; subst; auto.
      * destruct started; [|apply Hthrow]. apply Henter. destruct Ha as [Ha|[[] _]]; auto.
      * destruct started.
        { apply Henter. destruct Ha as [Ha|[[] _]]; auto. }
        simpl. eapply Hup; eauto. constructor; auto using le_reset with le. left; auto.
      * set (q := PArr _ _ _ _ _ _).
        assert (Hle : le_p (PArr b started store vals p cb) q) by (constructor; auto with le).
        destruct (linv_upd _ Hi Hg Hle) as (H1 & H2 & H3). eapply lsafe_trans; eauto.
    + (* map *)
      unfold on_map. destruct t; try apply Hthrow.
      * apply Hnull; auto.
      * eapply Hup; eauto using le_reset.
      * assert (Ha' : att (PMap b store key vals p ecb cb)) by (destruct Ha as [Ha|[[] _]]; auto).
        simpl in Ha'. destruct Ha' as [Hd Hae]. rewrite Hd, deref_g.
        set (q := set_not_empty _).
        assert (Hle : le_p (PMap b store key vals p ecb cb) q).
        { unfold q. eapply le_trans; [|apply le_set_not_empty]. constructor; auto with le. }
        destruct (linv_upd _ Hi Hg Hle) as (H1 & H2 & H3).
        simpl. split; auto. eapply linv_push; eauto. erewrite get_child_at by eauto. reflexivity.
      * eapply Hend; eauto.
    + (* object *)
      unfold on_obj. destruct t; try apply Hthrow.
      * apply Hnull; auto.
      * eapply Hup; eauto using le_reset.
      * apply lsafe_on_member; auto.
        -- destruct Ha as [Ha|[[] _]]; auto.
        -- left; repeat eexists.
      * eapply Hend; eauto.
    + (* union *)
      assert (Ha' : att (PUni b store v t0 tm cur ms ig cb)).
      { destruct Ha as [Ha|[_ Ha]]; [auto|discriminate]. }
      unfold on_uni. destruct t; try apply Hthrow.
      * apply Hnull; auto.
      * destruct (takes_scalar _ _); [|apply Hthrow].
        set (q := reset _).
        assert (Hle : le_p (PUni b store v t0 tm cur ms ig cb) q) by apply le_reset.
        destruct (linv_upd _ Hi Hg Hle) as (H1 & H2 & H3).
        eapply lsafe_trans; eauto. apply lsafe_bind.
        { assert (Hms : exists ms', q = PUni (reset_base b) store (if store then dflt (PUni b store v t0 tm cur ms ig cb) else v) t0 tm 0 ms' (reset_ig ig) cb
                     /\ forall x, lookup x ms' = lookup x ms).
          { eexists; split; [reflexivity|]. intros y. clear.
            induction ms as [|[m a] r IH]; simpl; auto. rewrite IH; auto. }
          destruct Hms as (ms' & Hq & Hl).
          replace (on_member E g pi q ms false x (upd s pi q))
            with (on_member E g pi q ms' false x (upd s pi q))
            by (unfold on_member; rewrite Hl; auto).
          apply lsafe_on_member; auto.
          - eapply le_att; eauto.
          - right. rewrite Hq. repeat eexists. }
        intros s' Hi' Hle'. destruct (le_get _ Hle' H3) as (q' & Hq' & Hlq').
        eapply lsafe_at; eauto. destruct q'; try (simpl; auto with le; fail).
        destruct (lookup x ms); [|simpl; auto with le].
        assert (Hle2 : le_p (PUni b0 store0 v0 t tm0 cur0 ms0 ig0 cb0) (PUni b0 store0 v0 t tm0 n ms0 ig0 cb0))
          by (constructor; auto with le).
        destruct (linv_upd _ Hi' Hq' Hle2) as (? & ? & ?). simpl; auto.
      * destruct (String.eqb _ _); [apply Hthrow|]. eapply Hup; eauto using le_reset.
      * destruct (String.eqb _ _); [apply Hthrow|]. destruct (String.eqb _ _); [|apply Hthrow].
        simpl; auto with le.
      * eapply Hend; eauto.
    + (* ignore *)
      assert (Hst' : forall r, linv (upd s pi (PIgn (mkI (ig_b i) r))) /\
         lsafe s (rec (CEnd pi) (upd s pi (PIgn (mkI (ig_b i) r)))) /\
         lsafe s (ROk (upd s pi (PIgn (mkI (ig_b i) r))))).
      { intros r. assert (Hle : le_p (PIgn i) (PIgn (mkI (ig_b i) r))) by (constructor; left; auto).
        destruct (linv_upd _ Hi Hg Hle) as (H1 & H2 & H3). split; auto. split.
        - eapply lsafe_trans; eauto.
        - simpl; auto. }
      unfold on_ign. destruct t; try apply Hthrow.
      * apply Hnull; auto.
      * destruct (ig_st i); [eapply Hend; eauto|simpl; auto with le].
      * apply Hst'.
      * destruct (ig_st i) as [|[] r]; first [exact (Hthrow _) | simpl; auto with le].
      * destruct (ig_st i) as [|[] r]; try apply Hthrow. destruct r; apply Hst'.
      * apply Hst'.
      * destruct (ig_st i) as [|[] r]; try apply Hthrow. destruct r; apply Hst'.
  - (* CEnd *)
    destruct Hp as (p & Hg). unfold body_end. eapply lsafe_at; eauto.
    destruct (linv_upd _ Hi Hg (le_set_set g true p)) as (H1 & H2 & H3).
    eapply lsafe_trans; eauto. apply lsafe_bind.
    { eapply lsafe_finish; eauto. }
    intros s' Hi' Hle'. destruct (le_get _ Hle' H3) as (q & Hq & Hlq).
    eapply lsafe_at; eauto. apply lpop_if_disp_safe; auto.
  - (* CChild *)
    destruct Hp as (p & Hg & Ha). unfold body_child. eapply lsafe_at; eauto.
    destruct p; try (simpl; auto with le; fail).
    + destruct store; [|simpl; auto with le].
      destruct (pop_value p) as [[v e']|] eqn:Hv; [|apply Hthrow].
      destruct (e_store E v); (eapply Hup; [eauto|constructor; auto with le; eapply le_pop_value; eauto]).
    + apply lsafe_bind.
      { apply lsafe_run_cb; auto with le. }
      intros s' Hi' Hle'. destruct store; [|simpl; auto with le].
      destruct (le_get _ Hle' Hg) as (q & Hq & Hlq).
      eapply lsafe_at; eauto. destruct q; try (simpl; auto with le; fail).
      destruct (pop_value q) as [[v e']|] eqn:Hv; [|simpl; auto with le].
      assert (Hle2 : forall vals', le_p (PMap b0 store key0 vals0 q ecb0 cb0)
                          (PMap b0 store key0 vals' e' ecb0 cb0)).
      { intros vals'. constructor; auto with le. eapply le_pop_value; eauto. }
      destruct (e_store E v);
        match goal with |- context [PMap b0 store key0 ?w e' ecb0 cb0] =>
          destruct (linv_upd _ Hi' Hq (Hle2 w)) as (? & ? & ?); simpl; auto end.
    + destruct Ha as [Ha|Ha]; [|discriminate].
      apply lsafe_bind; [eapply Hend; eauto|].
      intros s' Hi' Hle'. destruct (String.eqb _ _); [|simpl; auto with le].
      destruct (le_get _ Hle' Hg) as (q & Hq & Hlq).
      eapply lsafe_at; eauto.
      assert (Haq : att q) by (eapply le_att; eauto).
      rewrite (att_disp _ _ Haq), deref_g. apply IH; simpl; auto.
Qed.

Lemma lsafe_fault c s x s' :
  linv s -> pre c s -> In s' (faults g c s) -> lsafe s (RThrow x s').
Proof.
  intros Hi Hp Hin.
  destruct (fault_le _ _ _ _ Hp Hin) as (pi & t & p & q & _ & Hg & Hle & H).
  destruct (linv_upd _ Hi Hg Hle) as (H1 & H2 & H3).
  destruct H as [->|(st & c' & Hc & Ha & ->)]; simpl; auto. split; auto.
  eapply linv_push; eauto. erewrite get_child_at by eauto. auto.
Qed.
End Loose.

Section All.
Variable g : nat.
Variable E : env.
Variable sch : schema.
Hypothesis Hsch : no_arr_uni sch = true.

Lemma lexec_safe f : forall c s, linv g sch s -> pre g c s -> lsafe g sch s (exec E g f c s).
Proof.
  induction f as [|f IH]; intros c s Hi Hp; [simpl; auto|]. cbn [exec]. apply body_cases.
  - intros E' _ _ _. apply lcall_body_safe; auto.
  - intros x s' H. eapply lsafe_fault; eauto.
Qed.

Lemma ldispatch_safe t s : linv g sch s -> lsafe g sch s (dispatch E g t s).
Proof. intros; apply lexec_safe; simpl; auto. Qed.

Lemma lrun_safe ts : forall s, linv g sch s -> lsafe g sch s (run E g ts s).
Proof.
  induction ts as [|t ts IH]; simpl; intros s Hi; [simpl; auto using le_refl|].
  apply lsafe_bind; auto using ldispatch_safe.
Qed.

Lemma linv_reset s : linv g sch s -> linv g sch (dispatcher_reset s).
Proof.
  intros Hi. eapply linv_le; eauto using le_refl. simpl. constructor; auto.
  exists (m_root s). split; auto. apply (linv_root Hi).
Qed.

End All.
