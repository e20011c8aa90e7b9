(** The fuel given to [exec] always suffices, and a fuel-free form [call]. *)

From Verif Require Import Model Infra.
Set Implicit Arguments.

Section Total.
Variable E : env.
Variable g : nat.

(** ** The non-recursive parts keep the stack and need no fuel *)
Definition quiet (s : mstate) (r : res) : Prop :=
  match r with
  | ROk s' => m_stack s' = m_stack s
  | RThrow _ s' => m_stack s' = m_stack s
  | RUB _ => True
  | RFuel => False
  end.

Lemma run_cb_quiet c a eff msg s :
  (forall o s, m_stack (eff o s) = m_stack s) ->
  quiet s (run_cb E c a eff msg s).
Proof.
  intros He. unfold run_cb. destruct c as [c|]; simpl; auto.
  destruct (co_res _); simpl; rewrite away_stack, He; reflexivity.
Qed.

Lemma no_eff_stack o s : m_stack (no_eff o s) = m_stack s.
Proof. reflexivity. Qed.

Lemma pops_eff_stack pi o s : m_stack (pops_eff pi o s) = m_stack s.
Proof. unfold pops_eff; destruct (get _ _); reflexivity. Qed.

Lemma cust_eff_stack pi o s : m_stack (cust_eff pi o s) = m_stack s.
Proof. unfold cust_eff; destruct (get _ _) as [[]|]; reflexivity. Qed.

Lemma quiet_upd s pi q r : quiet (upd s pi q) r -> quiet s r.
Proof. destruct r; simpl; auto. Qed.

Lemma finish_quiet pi s : quiet s (finish E pi s).
Proof.
  pose proof no_eff_stack as H1.
  pose proof (pops_eff_stack pi) as H2. pose proof (cust_eff_stack pi) as H3.
  unfold finish, at_node. destruct (get pi (m_root s)) as [p|]; [|simpl; auto].
  destruct p; simpl.
  - apply run_cb_quiet; auto.
  - destruct store; apply run_cb_quiet; auto.
  - apply run_cb_quiet; auto.
  - destruct (b_empty b); simpl; auto. destruct k.
    + destruct (check_members _ _); simpl; auto. apply run_cb_quiet; auto.
    + destruct (set_values _ _) as [ms' [e|vs]]; simpl; auto.
      eapply quiet_upd, run_cb_quiet; auto.
    + destruct (check_members _ _); simpl; auto. apply run_cb_quiet; auto.
  - destruct (b_empty b); simpl; auto. destruct store.
    + destruct (uni_set_value _ _) as [ms' [e|o]]; simpl; auto.
      eapply quiet_upd, run_cb_quiet; auto.
    + destruct (uni_check _ _); simpl; auto. apply run_cb_quiet; auto.
  - auto.
Qed.

(** ** How much the stack grows *)
Definition growth (c : call) : nat :=
  match c with
  | COn _ TMapEnd => 0
  | COn _ (TSc _) => 1
  | CDisp TMapEnd => 0
  | CPop | CEnd _ | CChild _ => 0
  | _ => 0
  end.

Definition limited (c : call) : bool :=
  match c with
  | COn _ TMapEnd | COn _ (TSc _) | CDisp TMapEnd | CPop | CEnd _ | CChild _ => true
  | _ => false
  end.

Definition grows (n : nat) (s : mstate) (r : res) : Prop :=
  match r with
  | ROk s' => List.length (m_stack s') <= n + List.length (m_stack s)
  | _ => True
  end.

Lemma bind_grows n m s r k :
  grows n s r -> (forall s', grows m s' (k s')) -> grows (n + m) s (bind r k).
Proof.
  destruct r; simpl; auto. intros H Hk. specialize (Hk s0).
  destruct (k s0); simpl in *; auto. lia.
Qed.

Lemma quiet_grows s r : quiet s r -> grows 0 s r.
Proof. destruct r; simpl; auto. intros ->; lia. Qed.

Lemma grows_le n m s r : n <= m -> grows n s r -> grows m s r.
Proof. destruct r; simpl; auto. lia. Qed.

Lemma at_node_grows n s pi k : (forall p, grows n s (k p)) -> grows n s (at_node s pi k).
Proof. unfold at_node; destruct (get _ _); simpl; auto. Qed.

Lemma deref_grows n s d r : grows n s r -> grows n s (deref g d r).
Proof. unfold deref; destruct d; simpl; auto. destruct (Nat.eqb _ _); simpl; auto. Qed.

Lemma pop_if_disp_grows rec d s :
  (forall s, grows 0 s (rec CPop s)) -> grows 0 s (pop_if_disp g rec d s).
Proof. intros H; unfold pop_if_disp; destruct d; [apply deref_grows; auto | simpl; lia]. Qed.

Lemma grows_upd n s pi q r : grows n (upd s pi q) r -> grows n s r.
Proof. destruct r; simpl; auto. Qed.

Lemma on_member_grows A pi p (ms : list (mspec * A)) ign nm s :
  grows 1 s (on_member E g pi p ms ign nm s).
Proof.
  unfold on_member. destruct (lookup nm ms); [|destruct ign; simpl; auto];
    apply deref_grows; simpl; lia.
Qed.

Lemma call_body_grows rec :
  (forall c s, limited c = true -> grows (growth c) s (rec c s)) ->
  forall c s, limited c = true -> grows (growth c) s (call_body E g rec c s).
Proof.
  intros IH c s Hl.
  assert (Hpop : forall s, grows 0 s (rec CPop s)) by (intros; apply (IH CPop); auto).
  assert (Hend : forall pi s, grows 0 s (rec (CEnd pi) s)) by (intros; apply (IH (CEnd pi)); auto).
  assert (Hch : forall pi s, grows 0 s (rec (CChild pi) s)) by (intros; apply (IH (CChild pi)); auto).
  assert (Hd : forall s, grows 0 s (rec (CDisp TMapEnd) s)) by (intros; apply (IH (CDisp TMapEnd)); auto).
  assert (Hsc : forall pi x s, grows 1 s (rec (COn pi (TSc x)) s)) by (intros; apply (IH (COn pi (TSc x))); auto).
  assert (Hme : forall pi s, grows 0 s (rec (COn pi TMapEnd) s)) by (intros; apply (IH (COn pi TMapEnd)); auto).
  destruct c as [|t|pi t|pi|pi]; simpl in *.
  - unfold body_pop. destruct (m_stack s) as [|q [|q' r]] eqn:Hs; simpl; auto.
    + rewrite Hs; simpl; lia.
    + specialize (Hch q' (set_stack s (q' :: r))).
      destruct (rec _ _); simpl in *; auto. rewrite Hs; simpl; lia.
  - destruct t; try discriminate. unfold body_disp.
    destruct (m_stack s) eqn:Hs; simpl; auto.
  - assert (Ht : t = TMapEnd \/ exists x, t = TSc x).
    { destruct t; try discriminate; eauto. }
    unfold body_on. apply at_node_grows. intros p.
    destruct Ht as [->|[x ->]]; destruct p; simpl; auto.
    + destruct (ig_st i) as [|[] r]; simpl; auto. destruct r; simpl; [|lia].
      eapply grows_upd; apply Hend.
    + destruct (takes_scalar _ _); simpl; auto.
      eapply grows_le; [|eapply grows_upd; apply Hend]; lia.
    + destruct started; simpl; auto. apply (@bind_grows 1 0); auto. intros s'.
      apply at_node_grows. intros p1. eapply grows_upd; apply Hch.
    + destruct (takes_scalar _ _); simpl; auto.
      apply (@bind_grows 1 0).
      * eapply grows_upd, on_member_grows.
      * intros s'. apply at_node_grows. intros p. destruct p; simpl; auto;
          destruct (lookup x ms); simpl; auto.
    + destruct (ig_st i); simpl; [|lia]. eapply grows_le; [|apply Hend]; lia.
  - unfold body_end. apply at_node_grows. intros p.
    apply (@bind_grows 0 0).
    + eapply quiet_grows, quiet_upd, finish_quiet.
    + intros s'. apply at_node_grows. intros p'. apply pop_if_disp_grows; auto.
  - unfold body_child. apply at_node_grows. intros p. destruct p; simpl; auto.
    + destruct store; simpl; auto. destruct (pop_value _) as [[v ?]|]; simpl; auto. destruct (e_store E v); simpl; auto.
    + apply (@bind_grows 0 0).
      * eapply quiet_grows, run_cb_quiet. intros; apply pops_eff_stack.
      * intros s'. destruct store; simpl; auto. apply at_node_grows.
        intros p'. destruct p'; simpl; auto. destruct (pop_value _) as [[v ?]|]; simpl; auto. destruct (e_store E v); simpl; auto.
    + apply (@bind_grows 0 0); auto. intros s'.
      destruct (String.eqb _ _); simpl; auto. apply at_node_grows. intros p'.
      apply deref_grows; auto.
Qed.

(** ** Fuel bounds *)
Definition bound (c : call) (s : mstate) : nat :=
  let n := List.length (m_stack s) in
  match c with
  | CPop => 5 * n + 1
  | CEnd _ => 5 * n + 2
  | CChild _ => 5 * n + 5
  | COn _ TMapEnd => 5 * n + 3
  | CDisp TMapEnd => 5 * n + 4
  | COn pi _ =>
      match get pi (m_root s) with
      | Some p => 5 * n + 6 * height p + 6
      | None => 1
      end
  | CDisp _ => 5 * n + 6 * height (m_root s) + 7
  end.

Lemma height_pos p : 1 <= height p.
Proof. destruct p; simpl; lia. Qed.

Lemma at_node_fuel s pi k :
  (forall p, get pi (m_root s) = Some p -> k p <> RFuel) -> at_node s pi k <> RFuel.
Proof. unfold at_node; destruct (get _ _); [auto|discriminate]. Qed.

Lemma bind_fuel r k :
  r <> RFuel -> (forall s', r = ROk s' -> k s' <> RFuel) -> bind r k <> RFuel.
Proof. destruct r; simpl; auto; discriminate. Qed.

Lemma deref_fuel d r : r <> RFuel -> deref g d r <> RFuel.
Proof. unfold deref; destruct d; [destruct (Nat.eqb _ _)|]; auto; discriminate. Qed.

Lemma pop_if_disp_fuel rec d s : rec CPop s <> RFuel -> pop_if_disp g rec d s <> RFuel.
Proof. intros; unfold pop_if_disp; destruct d; [apply deref_fuel; auto|discriminate]. Qed.

Lemma quiet_fuel s r : quiet s r -> r <> RFuel.
Proof. destruct r; simpl; auto; discriminate. Qed.

Lemma on_member_fuel A pi p (ms : list (mspec * A)) ign nm s :
  on_member E g pi p ms ign nm s <> RFuel.
Proof.
  unfold on_member; destruct (lookup nm ms); [|destruct ign]; try discriminate;
    apply deref_fuel; discriminate.
Qed.

Lemma call_body_fuel rec f :
  (forall c s, limited c = true -> grows (growth c) s (rec c s)) ->
  (forall c s, bound c s <= f -> rec c s <> RFuel) ->
  forall c s, bound c s <= S f -> call_body E g rec c s <> RFuel.
Proof.
  intros Hgr IH c s Hb. set (n := List.length (m_stack s)).
  assert (Hpop : forall s', 5 * List.length (m_stack s') + 1 <= f -> rec CPop s' <> RFuel)
    by (intros; apply IH; simpl; lia).
  assert (Hend : forall pi s', 5 * List.length (m_stack s') + 2 <= f -> rec (CEnd pi) s' <> RFuel)
    by (intros; apply IH; simpl; lia).
  assert (Hch : forall pi s', 5 * List.length (m_stack s') + 5 <= f -> rec (CChild pi) s' <> RFuel)
    by (intros; apply IH; simpl; lia).
  assert (Hnull : forall pi p s', 5 * List.length (m_stack s') + 1 <= f -> on_null g (rec) pi p s' <> RFuel).
  { intros. unfold on_null. apply pop_if_disp_fuel, Hpop. simpl; lia. }
  destruct c as [|t|pi t|pi|pi]; cbn [call_body].
  - (* CPop *)
    unfold body_pop. simpl in Hb. fold n in Hb.
    destruct (m_stack s) as [|q [|q' r]] eqn:Hs; simpl; try discriminate.
    apply Hch. unfold n in Hb. try rewrite Hs in Hb. simpl in *. lia.
  - (* CDisp *)
    unfold body_disp. destruct (m_stack s) as [|q r] eqn:Hs; simpl; try discriminate.
    assert (Hn : List.length (m_stack s) = S (List.length r)) by (rewrite Hs; auto).
    apply IH. destruct t; simpl in *; try lia;
      destruct (get q (m_root s)) as [p|] eqn:Hg; try lia;
      apply get_height in Hg; lia.
  - (* COn *)
    unfold body_on. apply at_node_fuel. intros p Hg.
    pose proof (height_pos p) as Hh.
    assert (Hb' : t = TMapEnd /\ 5 * n + 3 <= S f \/
                  t <> TMapEnd /\ 5 * n + 6 * height p + 6 <= S f).
    { unfold n. destruct t; simpl in Hb; try rewrite Hg in Hb; try (right; split; [discriminate|lia]).
      left; split; auto. }
    fold n in Hpop, Hend, Hch.
    destruct Hb' as [[-> Hb']|[Ht Hb']]; destruct p; simpl.
    + discriminate.
    + discriminate.
    + apply Hend; fold n; lia.
    + apply Hend; fold n; lia.
    + apply Hend; fold n; lia.
    + destruct (ig_st i) as [|[] r]; simpl; try discriminate. destruct r; simpl; try discriminate.
      apply Hend; simpl; fold n; lia.
    + destruct t; simpl; try discriminate.
      * apply Hnull; fold n; lia.
      * destruct (takes_scalar _ _); simpl; try discriminate. apply Hend; simpl; fold n; lia.
    + (* array *)
      assert (He : get (pi ++ [Elem]) (m_root s) = Some p).
      { erewrite get_child_at by eauto. reflexivity. }
      cbn [height] in Hb'.
      assert (Henter : forall t, t = TMapStart \/ t = TArrStart ->
         arr_enter g (rec) pi (PArr b started store vals p cb) t s <> RFuel).
      { intros t' Ht'. unfold arr_enter. apply deref_fuel, IH.
        set (p1 := set_not_empty _).
        assert (Hg1 : get (pi ++ [Elem]) (put pi p1 (m_root s)) = Some (set_disp (b_disp b) p)).
        { erewrite get_child_at; [|eapply get_put_same; [eauto|simpl; auto]]. reflexivity. }
        destruct Ht'; subst t'; cbn [bound push upd set_stack m_stack m_root]; rewrite Hg1, height_set_disp;
          cbn [List.length]; fold n; lia. }
      destruct t; simpl; try discriminate; try tauto.
      * destruct started; [|apply Hnull; fold n; lia].
        apply IH. simpl. rewrite He. fold n; lia.
      * destruct started; [|discriminate]. apply bind_fuel.
        { apply IH. simpl. rewrite He. fold n; lia. }
        intros s' Hs'. apply at_node_fuel. intros p' _. apply Hch. simpl.
        pose proof (Hgr (COn (pi ++ [Elem]) (TSc x)) s eq_refl) as G.
        rewrite Hs' in G. simpl in G. fold n in G. lia.
      * destruct started; [|discriminate]. apply Henter; auto.
      * destruct started; [|discriminate]. apply Henter; auto.
      * apply Hend. simpl; fold n; lia.
    + destruct t; simpl; try discriminate; try tauto.
      * apply Hnull; fold n; lia.
      * apply deref_fuel; discriminate.
    + destruct t; simpl; try discriminate; try tauto.
      * apply Hnull; fold n; lia.
      * apply on_member_fuel.
    + destruct t; simpl; try discriminate; try tauto.
      * apply Hnull; fold n; lia.
      * destruct (takes_scalar _ _); simpl; try discriminate. apply bind_fuel.
        { apply on_member_fuel. }
        intros s' _. apply at_node_fuel. intros p' _. destruct p'; destruct (lookup x ms); discriminate.
      * destruct (String.eqb _ _); discriminate.
      * destruct (String.eqb _ _); [discriminate|]. destruct (String.eqb _ _); discriminate.
    + destruct t; simpl; try discriminate; try tauto.
      * apply Hnull; fold n; lia.
      * destruct (ig_st i); try discriminate. apply Hend; fold n; lia.
      * destruct (ig_st i) as [|[] r]; simpl; discriminate.
      * destruct (ig_st i) as [|[] r]; simpl; try discriminate. destruct r; simpl; try discriminate.
        apply Hend; simpl; fold n; lia.
  - (* CEnd *)
    simpl in Hb. fold n in Hb.
    unfold body_end. apply at_node_fuel. intros p _. apply bind_fuel.
    { eapply quiet_fuel, finish_quiet. }
    intros s' Hs'. apply at_node_fuel. intros p' _. apply pop_if_disp_fuel, Hpop.
    pose proof (finish_quiet pi (upd s pi (set_set true p))) as Q. rewrite Hs' in Q. simpl in Q.
    rewrite Q. fold n. lia.
  - (* CChild *)
    simpl in Hb. fold n in Hb.
    unfold body_child. apply at_node_fuel. intros p _. destruct p; try discriminate.
    + destruct store; try discriminate. destruct (pop_value _) as [[v ?]|]; [destruct (e_store E v)|]; discriminate.
    + apply bind_fuel.
      { eapply quiet_fuel, run_cb_quiet. intros; apply pops_eff_stack. }
      intros s' _. destruct store; try discriminate. apply at_node_fuel. intros p' _.
      destruct p'; try discriminate. destruct (pop_value _) as [[v ?]|]; [destruct (e_store E v)|]; discriminate.
    + apply bind_fuel.
      { apply Hend. fold n. lia. }
      intros s' Hs'. destruct (String.eqb _ _); try discriminate.
      apply at_node_fuel. intros p' _. apply deref_fuel, IH. simpl.
      pose proof (Hgr (CEnd pi) s eq_refl) as G. rewrite Hs' in G. simpl in G.
      fold n in G. lia.
Qed.

(** ** Fuel does not matter *)
Definition agrees (r1 r2 : res) : Prop := r1 = RFuel \/ r1 = r2.

Lemma agrees_refl r : agrees r r.
Proof. right; auto. Qed.

Lemma bind_agrees r1 r2 k1 k2 :
  agrees r1 r2 -> (forall s, agrees (k1 s) (k2 s)) -> agrees (bind r1 k1) (bind r2 k2).
Proof. intros [->| ->] H; [left; auto|]. destruct r2; simpl; auto using agrees_refl. Qed.

Lemma at_node_agrees s pi k1 k2 :
  (forall p, agrees (k1 p) (k2 p)) -> agrees (at_node s pi k1) (at_node s pi k2).
Proof. unfold at_node; destruct (get _ _); auto using agrees_refl. Qed.

Lemma deref_agrees d r1 r2 : agrees r1 r2 -> agrees (deref g d r1) (deref g d r2).
Proof. unfold deref; destruct d; [destruct (Nat.eqb _ _)|]; auto using agrees_refl. Qed.

Lemma call_body_agrees rec1 rec2 :
  (forall c s, agrees (rec1 c s) (rec2 c s)) ->
  forall c s, agrees (call_body E g rec1 c s) (call_body E g rec2 c s).
Proof.
  intros H.
  assert (Hp : forall d s, agrees (pop_if_disp g rec1 d s) (pop_if_disp g rec2 d s)).
  { intros d s; unfold pop_if_disp; destruct d; auto using agrees_refl, deref_agrees. }
  assert (Hn : forall pi p s, agrees (on_null g rec1 pi p s) (on_null g rec2 pi p s)).
  { intros; apply Hp. }
  intros c s; destruct c as [|t|pi t|pi|pi]; cbn [call_body].
  - unfold body_pop. destruct (m_stack s) as [|q [|]]; auto using agrees_refl.
  - unfold body_disp. destruct (m_stack s); auto using agrees_refl.
  - unfold body_on. apply at_node_agrees. intros p. destruct p; simpl.
    + destruct t; auto using agrees_refl. destruct (takes_scalar _ _); auto using agrees_refl.
    + destruct t; simpl; auto using agrees_refl.
      * destruct started; auto.
      * destruct started; auto using agrees_refl. apply bind_agrees; auto.
        intros s'; apply at_node_agrees; auto.
      * destruct started; auto using agrees_refl, deref_agrees.
      * destruct started; auto using agrees_refl, deref_agrees.
    + destruct t; simpl; auto using agrees_refl.
    + destruct t; simpl; auto using agrees_refl.
    + destruct t; simpl; auto using agrees_refl.
    + destruct t; simpl; auto using agrees_refl.
      * destruct (ig_st i); auto using agrees_refl.
      * destruct (ig_st i) as [|[] [|]]; auto using agrees_refl.
      * destruct (ig_st i) as [|[] [|]]; auto using agrees_refl.
  - unfold body_end. apply at_node_agrees. intros p. apply bind_agrees; auto using agrees_refl.
    intros s'. apply at_node_agrees; auto.
  - unfold body_child. apply at_node_agrees. intros p. destruct p; auto using agrees_refl.
    apply bind_agrees; auto. intros s'. destruct (String.eqb _ _); auto using agrees_refl.
    apply at_node_agrees; auto using deref_agrees.
Qed.

End Total.

(** ** The same, in any memory *)
Section All.
Variable E : env.
Variable g : nat.

Lemma body_grows rec :
  (forall c s, limited c = true -> grows (growth c) s (rec c s)) ->
  forall c s, limited c = true -> grows (growth c) s (body E g rec c s).
Proof. intros H c s Hl. apply body_cases; simpl; auto using call_body_grows. Qed.

Lemma exec_grows f : forall c s, limited c = true -> grows (growth c) s (exec E g f c s).
Proof. induction f as [|f IH]; intros c s Hl; simpl; auto. apply body_grows; auto. Qed.

Lemma exec_fuel f : forall c s, bound c s <= f -> exec E g f c s <> RFuel.
Proof.
  induction f as [|f IH]; intros c s Hb.
  { exfalso. unfold bound in Hb. destruct c as [|[]|pi []|pi|pi]; try lia;
      destruct (get _ _); lia. }
  cbn [exec]. apply body_cases; [|discriminate].
  intros E' _ _ _. apply call_body_fuel with (f := f); auto using exec_grows.
Qed.

Lemma body_agrees rec1 rec2 :
  (forall c s, agrees (rec1 c s) (rec2 c s)) ->
  forall c s, agrees (body E g rec1 c s) (body E g rec2 c s).
Proof.
  intros H c s. unfold body. destruct (e_alloc E c s) as [[k x|x]|]; auto using call_body_agrees.
  destruct (nth_error (faults g c s) k); auto using call_body_agrees, agrees_refl.
Qed.

Lemma exec_S_agrees f : forall c s, agrees (exec E g f c s) (exec E g (S f) c s).
Proof.
  induction f as [|f IH]; intros c s; [left; auto|].
  apply body_agrees, IH.
Qed.

Lemma exec_mono f f' c s :
  f <= f' -> exec E g f c s <> RFuel -> exec E g f' c s = exec E g f c s.
Proof.
  induction 1 as [|f' Hle IH]; auto. intros Hf. specialize (IH Hf).
  destruct (exec_S_agrees f' c s) as [H|H]; congruence.
Qed.

(** The call, without fuel. *)
Definition call_ (c : call) (s : mstate) : res := exec E g (bound c s) c s.

Lemma call_exec f c s : bound c s <= f -> exec E g f c s = call_ c s.
Proof. intros; apply exec_mono; auto. apply exec_fuel; auto. Qed.

Lemma call_not_fuel c s : call_ c s <> RFuel.
Proof. apply exec_fuel; auto. Qed.

Lemma call_eq c s : call_ c s = body E g call_ c s.
Proof.
  rewrite <- (@call_exec (S (bound c s)) c s) by lia. cbn [exec].
  destruct (@body_agrees (exec E g (bound c s)) call_) with (c := c) (s := s) as [H|H]; auto.
  - intros c' s'. destruct (le_lt_dec (bound c' s') (bound c s)) as [Hle|Hgt].
    + right. apply call_exec; auto.
    + destruct (exec E g (bound c s) c' s') eqn:Hx; try (left; reflexivity); right;
        rewrite <- Hx; symmetry; apply exec_mono; try lia; congruence.
  - exfalso. apply (@exec_fuel (S (bound c s)) c s); [lia|]. exact H.
Qed.

(** With enough memory. *)
Lemma call_eq0 c s : e_alloc E c s = None -> call_ c s = call_body E g call_ c s.
Proof. intros H. rewrite call_eq. unfold body. rewrite H. reflexivity. Qed.

Lemma fuel_for_bound t s : bound (CDisp t) s <= fuel_for s.
Proof. unfold fuel_for. destruct t; simpl; lia. Qed.

Lemma dispatch_call t s : dispatch E g t s = call_ (CDisp t) s.
Proof. apply call_exec, fuel_for_bound. Qed.

Lemma dispatch_total t s : dispatch E g t s <> RFuel.
Proof. apply exec_fuel, fuel_for_bound. Qed.

Lemma run_total ts : forall s, run E g ts s <> RFuel.
Proof.
  induction ts as [|t ts IH]; simpl; intros s; [discriminate|].
  apply bind_fuel; auto using dispatch_total.
Qed.

Lemma run_app ts1 : forall ts2 s, run E g (ts1 ++ ts2) s = bind (run E g ts1 s) (run E g ts2).
Proof.
  induction ts1 as [|t ts1 IH]; simpl; intros ts2 s; auto.
  destruct (dispatch E g t s); simpl; auto.
Qed.
End All.
