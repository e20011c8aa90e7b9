(** The lockstep of Same.v, for every call and every token sequence. *)

From Verif Require Import Spec Model Infra Total Safe Refine Main Api ApiProofs History Unset MoveState Same.
Set Implicit Arguments.

(** ** Dispatcher pointers only move to the live dispatcher, unconditionally *)
Section Mono.
Variable E : env.
Variable g : nat.
Notation le_p := (le_p g).
Notation eff_ok := (eff_ok g).
Local Hint Resolve le_b_refl le_i_refl le_refl le_ms_refl eff_no eff_pops eff_cust : le.
Local Hint Constructors Safe.le_p Safe.le_ms : le.

Definition lex (s : mstate) (r : res) : Prop :=
  match r with ROk s1 | RThrow _ s1 => le_p (m_root s) (m_root s1) | _ => True end.

Lemma lex_trans s s1 r : le_p (m_root s) (m_root s1) -> lex s1 r -> lex s r.
Proof. destruct r; simpl; eauto using le_trans. Qed.
Lemma lex_bind s r k : lex s r -> (forall s1, le_p (m_root s) (m_root s1) -> lex s1 (k s1)) -> lex s (bind r k).
Proof. destruct r; simpl; auto. intros H Hk. eapply lex_trans; eauto. Qed.
Lemma lex_at s pi k : (forall p, get pi (m_root s) = Some p -> lex s (k p)) -> lex s (at_node s pi k).
Proof. unfold at_node. destruct (get pi (m_root s)); simpl; auto. Qed.
Lemma lex_deref s d r : (d = Some g -> lex s r) -> lex s (deref g d r).
Proof.
  unfold deref. destruct d as [x|]; simpl; auto. destruct (Nat.eqb x g) eqn:Hx; simpl; auto.
  apply Nat.eqb_eq in Hx. subst. auto.
Qed.
Lemma lex_upd s pi p q : get pi (m_root s) = Some p -> le_p p q -> le_p (m_root s) (m_root (upd s pi q)).
Proof. intros; simpl; eapply le_put; eauto. Qed.

Lemma lex_run_cb c a eff msg s : eff_ok eff -> lex s (run_cb E c a eff msg s).
Proof.
  intros He. unfold run_cb. destruct c as [c|]; simpl; auto with le.
  set (o := e_cb E c (m_log s) (m_root s) a). set (s0 := add_log s _).
  assert (H : le_p (m_root s) (m_root (away (co_away o) (eff o s0)))).
  { destruct (He o s0) as [H1 H2]. rewrite away_root; eapply le_trans; [exact H2|apply le_apply_pops]. }
  destruct (co_res o); simpl; auto.
Qed.

Lemma lex_finish pi s : lex s (Model.finish E pi s).
Proof.
  unfold Model.finish. apply lex_at. intros p Hg.
  assert (Hu : forall q e, le_p p q -> lex s (RThrow e (upd s pi q))).
  { intros q e Hle. simpl. eapply le_put; eauto. }
  assert (Hu' : forall q, le_p p q -> lex s (ROk (upd s pi q))).
  { intros q Hle. simpl. eapply le_put; eauto. }
  assert (Hr : forall q c a eff msg, le_p p q -> eff_ok eff -> lex s (run_cb E c a eff msg (upd s pi q))).
  { intros q c a eff msg Hle He. eapply lex_trans; [eapply lex_upd; eauto|]. apply lex_run_cb; auto. }
  destruct p.
  - apply lex_run_cb; auto with le.
  - destruct store; apply lex_run_cb; auto with le.
  - apply lex_run_cb; auto with le.
  - destruct (b_empty b); [apply Hu', le_set_set|]. destruct k.
    + destruct (check_members _ _); [apply Hu, le_set_set|apply lex_run_cb; auto with le].
    + destruct (set_values E ms) as [ms' [e|vs]] eqn:Hv; apply (@le_set_values g) in Hv.
      * apply Hu. eapply le_trans; [|apply le_set_set]. auto with le.
      * apply Hr; auto with le.
    + destruct (check_members _ _); [apply Hu, le_set_set|apply lex_run_cb; auto with le].
  - destruct (b_empty b); [apply Hu', le_set_set|]. destruct store.
    + destruct (uni_set_value E cur ms) as [ms' [e|vs]] eqn:Hv; apply (@le_uni_set_value g) in Hv.
      * apply Hu. eapply le_trans; [|apply le_set_set]. auto with le.
      * apply Hr; auto with le.
    + destruct (uni_check _ _); [apply Hu, le_set_set|apply lex_run_cb; auto with le].
  - simpl; auto with le.
Qed.

Lemma lex_body rec : (forall c s, lex s (rec c s)) -> forall c s, lex s (call_body E g rec c s).
Proof.
  intros Hrec.
  assert (Hpop : forall d s, lex s (pop_if_disp g rec d s)).
  { intros [d|] s; cbn [pop_if_disp]; [apply lex_deref; auto|simpl; auto with le]. }
  assert (Hnull : forall pi p s, get pi (m_root s) = Some p -> lex s (on_null g rec pi p s)).
  { intros pi p s Hg. unfold on_null. eapply lex_trans; [|apply Hpop]. eapply lex_upd; eauto using le_reset. }
  assert (Hmem : forall (A : Type) pi p (ms : list (mspec * A)) ign nm s, get pi (m_root s) = Some p -> lex s (on_member E g pi p ms ign nm s)).
  { intros A pi p ms ign nm s Hg. unfold on_member.
    pose proof (@lex_upd s pi p _ Hg (le_set_not_empty g p)) as K.
    destruct (lookup nm ms); [apply lex_deref; simpl; auto|].
    destruct ign; [apply lex_deref; simpl; auto|simpl; auto]. }
  intros [|t|pi t|pi|pi] s; cbn [call_body].
  - unfold body_pop. destruct (m_stack s) as [|a [|q r]]; simpl; auto with le.
    apply (lex_trans s (set_stack s (q :: r))); [simpl; auto with le|apply Hrec].
  - unfold body_disp. destruct (m_stack s); simpl; auto with le.
  - unfold body_on. apply lex_at. intros p Hg.
    assert (Hsame : forall e, lex s (RThrow e s)) by (simpl; auto with le).
    assert (Hend : forall q, le_p p q -> lex s (rec (CEnd pi) (upd s pi q))).
    { intros q Hq. eapply lex_trans; [eapply lex_upd; eauto|apply Hrec]. }
    assert (Hup : forall q, le_p p q -> lex s (ROk (upd s pi q))).
    { intros q Hq. simpl. eapply le_put; eauto. }
    destruct p as [b ty v cb|b sd st vals e cb|b st key vals e ecb cb|b k v ms ig ign cb|b st v ty tm cur ms ig cb|i].
    + destruct t; cbn [on_val]; unfold throw_unexpected; auto.
      destruct (takes_scalar ty x); auto. apply Hend. constructor. left; auto.
    + assert (Hent : lex s (arr_enter g rec pi (PArr b sd st vals e cb) t s)).
      { unfold arr_enter. apply lex_deref. intros Hd. rewrite Hd in *.
        eapply lex_trans; [|apply Hrec]. cbn [push set_stack upd m_root m_stack]. eapply le_put; eauto.
        eapply le_trans; [|apply le_set_not_empty]. constructor; auto with le. apply le_set_disp. }
      destruct t; cbn [on_arr]; unfold throw_unexpected; auto.
      * destruct sd; auto.
      * destruct sd; auto. apply lex_bind; auto. intros s1 H1. apply lex_at. intros p1 Hg1.
        eapply lex_trans; [|apply Hrec]. eapply lex_upd; eauto using le_set_not_empty.
      * destruct sd; auto.
      * destruct sd; auto. cbn [reset]. apply Hup. constructor; auto with le. left; auto. apply le_reset.
      * apply Hend. constructor; auto with le.
    + destruct t; cbn [on_map]; unfold throw_unexpected; auto.
      * apply Hup, le_reset.
      * apply lex_deref. intros _. cbn [lex push set_stack upd m_root m_stack]. eapply le_put; eauto. eapply le_trans; [|apply le_set_not_empty]. constructor; auto with le.
    + destruct t; cbn [on_obj]; unfold throw_unexpected; auto. apply Hup, le_reset.
    + destruct t; cbn [on_uni]; unfold throw_unexpected; auto.
      * destruct (takes_scalar ty x); auto. apply lex_bind.
        -- eapply lex_trans; [eapply lex_upd; [exact Hg|apply le_reset]|]. apply Hmem.
           simpl. eapply get_put_same; eauto. simpl; auto.
        -- intros s2 _. apply lex_at. intros p2 Hg2. destruct p2; try (simpl; auto with le; fail).
           destruct (lookup x ms); simpl; auto with le. eapply le_put; eauto. constructor; auto with le.
      * destruct (String.eqb tm ""); auto. apply Hup, le_reset.
      * destruct (String.eqb tm ""); auto. destruct (String.eqb k tm); auto. simpl; auto with le.
    + assert (Hig : forall l, le_p (PIgn i) (PIgn (mkI (ig_b i) l))) by (intros l; constructor; left; auto).
      assert (Hok : lex s (ROk s)) by (simpl; auto with le).
      destruct t; cbn [on_ign]; unfold throw_unexpected; auto;
        destruct (ig_st i) as [|[] [|? ?]]; auto.
  - unfold body_end. apply lex_at. intros p Hg. apply lex_bind.
    + eapply lex_trans; [eapply lex_upd; eauto using le_set_set|apply lex_finish].
    + intros s2 _. apply lex_at. auto.
  - unfold body_child. apply lex_at. intros p Hg.
    destruct p as [b ty v cb|b sd st vals e cb|b st key vals e ecb cb|b k v ms ig ign cb|b st v ty tm cur ms ig cb|i];
      try (simpl; auto with le; fail).
    + destruct st; [|simpl; auto with le]. destruct (pop_value e) as [[v e']|] eqn:Hp; [|simpl; auto with le].
      apply (@le_pop_value g) in Hp. destruct (e_store E v); simpl; eapply le_put; eauto; constructor; auto with le.
    + apply lex_bind; [apply lex_run_cb; auto with le|]. intros s1 _. destruct st; [|simpl; auto with le].
      apply lex_at. intros p1 Hg1. destruct p1; try (simpl; auto with le; fail).
      destruct (pop_value p1) as [[v e']|] eqn:Hp; [|simpl; auto with le].
      apply (@le_pop_value g) in Hp. destruct (e_store E v); simpl; eapply le_put; eauto; constructor; auto with le.
    + apply lex_bind; auto. intros s1 _. destruct (String.eqb tm ""); [|simpl; auto with le].
      apply lex_at. intros p1 Hg1. apply lex_deref. auto.
Qed.

Lemma lex_fault c s x s' : In s' (faults g c s) -> lex s (RThrow x s').
Proof.
  intros Hin. destruct c as [|t|pi t|pi|pi]; try contradiction. cbn [faults] in Hin.
  destruct (get pi (m_root s)) as [p|] eqn:Hg; [|contradiction].
  assert (Hup : forall q, le_p p q -> upd s pi q = s' -> lex s (RThrow x s')).
  { intros q Hle <-. eapply lex_upd; eauto. }
  assert (Hpush : forall q pi', le_p p q -> push (upd s pi q) pi' = s' -> lex s (RThrow x s')).
  { intros q pi' Hle <-. eapply (@lex_upd s pi p q); eauto. }
  assert (Hne : forall q, le_p p q -> le_p p (set_not_empty q)) by (intros; eapply le_trans; eauto using le_set_not_empty).
  destruct p, t; try contradiction.
  - destruct (takes_scalar _ _); [|contradiction]. destruct Hin as [H|[]]. eapply Hup; [apply Hne, le_refl|exact H].
  - destruct started; [|contradiction]. apply in_live in Hin. destruct Hin as [Hd [H|[]]].
    eapply Hup; [|exact H]. apply Hne. rewrite Hd. constructor; auto using le_set_disp with le.
  - destruct started; [|contradiction]. apply in_live in Hin. destruct Hin as [Hd [H|[]]].
    eapply Hup; [|exact H]. apply Hne. rewrite Hd. constructor; auto using le_set_disp with le.
  - apply in_live in Hin. destruct Hin as [_ [H|[H|[]]]]; [eapply Hup|eapply Hpush]; try exact H; apply Hne, le_refl.
  - destruct Hin as [H|[]]. eapply Hup; [apply Hne, le_refl|exact H].
  - destruct (takes_scalar _ _); [|contradiction].
    destruct Hin as [H|Hin]; [eapply Hup; [apply Hne, le_reset|exact H]|]. destruct (lookup x0 ms); [|contradiction].
    apply in_live in Hin. destruct Hin as [_ [H|[]]]. eapply Hpush; [apply Hne, le_reset|exact H].
  - destruct Hin as [<-|[]]. simpl; auto with le.
  - destruct Hin as [<-|[]]. simpl; auto with le.
Qed.
End Mono.

Lemma exec_le E g f : forall c s, lex g s (exec E g f c s).
Proof.
  induction f as [|f IH]; intros c s; [exact I|]. cbn [exec]. apply body_cases.
  - intros E' _ _ _. apply lex_body; auto.
  - intros x s' H. eapply lex_fault; eauto.
Qed.

(** The program's callbacks see what the public API shows them: of all parsers but the
    elements of arrays and maps, and of their argument; there is enough memory. *)
Definition same_eyes (E : env) : Prop :=
  (forall c l T T' a a', view_of T = view_of T' -> obs_of a = obs_of a' -> e_cb E c l T a = e_cb E c l T' a') /\
  (forall c m, e_alloc E c m = None).

(** Tokens that begin a value. *)
Definition begins (t : token) : bool :=
  match t with TNull | TSc _ | TMapStart | TArrStart => true | _ => false end.
Definition is_key (t : token) : bool := match t with TKey _ => true | _ => false end.

Section Lock.
Variable E : env.
Variable g : nat.
Variable flat : bool.
Hypothesis Hcb : same_eyes E.
Notation sim := (sim g flat).
Notation sim_ms := (sim_ms g flat).
Notation le_p := (le_p g).

Record rel (x : act) (s s' : mstate) : Prop := {
  r_stack : m_stack s = m_stack s';
  r_log : m_log s = m_log s';
  r_sim : sim x (m_root s) (m_root s')
}.

(** Two outcomes that are the same. *)
Definition both (Q : mstate -> mstate -> Prop) (V : Prop) (r r' : res) : Prop :=
  match r, r' with
  | ROk s, ROk s' => Q s s'
  | RThrow e s, RThrow e' s' =>
      e = e' /\ m_log s = m_log s' /\ (V -> view_of (m_root s) = view_of (m_root s'))
  | RUB u, RUB u' => u = u'
  | RFuel, RFuel => True
  | _, _ => False
  end.

Lemma both_weak (Q Q' : mstate -> mstate -> Prop) (V V' : Prop) r r' :
  (forall s s', Q s s' -> Q' s s') -> (V' -> V) -> both Q V r r' -> both Q' V' r r'.
Proof. intros H1 H2. destruct r, r'; simpl; intuition auto. Qed.

Lemma both_bind (Q1 Q : mstate -> mstate -> Prop) V r r' k k' :
  both Q1 V r r' -> (forall s s', Q1 s s' -> both Q V (k s) (k' s')) -> both Q V (bind r k) (bind r' k').
Proof. destruct r, r'; simpl; auto; tauto. Qed.

Lemma deref_both Q V r r' : both Q V r r' -> both Q V (deref g (Some g) r) (deref g (Some g) r').
Proof. intros H. simpl. rewrite Nat.eqb_refl. auto. Qed.

Lemma at_both Q V pi b s s' k k' : rel (On pi b) s s' ->
  (forall p q, get pi (m_root s) = Some p -> get pi (m_root s') = Some q -> sim (On [] b) p q -> both Q V (k p) (k' q)) ->
  both Q V (at_node s pi k) (at_node s' pi k').
Proof.
  intros [_ _ H] Hk. unfold at_node. destruct (get pi (m_root s)) as [p|] eqn:Hg.
  - rewrite <- (app_nil_r pi) in H. destruct (get_sim _ _ H Hg) as (q & Hg' & Hs). rewrite Hg'. auto.
  - rewrite (get_sim_none _ H Hg). simpl. auto.
Qed.

Lemma upd_rel pi b b' s s' p q p1 q1 : rel (On pi b) s s' ->
  get pi (m_root s) = Some p -> get pi (m_root s') = Some q ->
  sim (On [] b') p1 q1 -> schema_of p1 = schema_of p -> (b' = Fresh -> b = Fresh) ->
  rel (On pi b') (upd s pi p1) (upd s' pi q1).
Proof.
  intros [H1 H2 H3] Hg Hg' Hs Hsc Hf. split; simpl; auto.
  replace (On pi b') with (On (pi ++ []) b') by (rewrite app_nil_r; auto).
  rewrite <- (app_nil_r pi) in H3. eapply put_sim; eauto.
Qed.

Lemma push_rel pi st b b' s s' p q p1 q1 : rel (On pi b) s s' ->
  get pi (m_root s) = Some p -> get pi (m_root s') = Some q ->
  sim (On [st] b') p1 q1 -> schema_of p1 = schema_of p ->
  rel (On (pi ++ [st]) b') (push (upd s pi p1) (pi ++ [st])) (push (upd s' pi q1) (pi ++ [st])).
Proof.
  intros [H1 H2 H3] Hg Hg' Hs Hsc. split; simpl; auto; [congruence|].
  rewrite <- (app_nil_r pi) in H3. eapply put_sim; eauto. discriminate.
Qed.

Lemma upd_same s pi p : get pi (m_root s) = Some p -> upd s pi p = s.
Proof. intros H. unfold upd. rewrite put_same by auto. destruct s; auto. Qed.

Lemma upd_upd s pi p p1 p2 : get pi (m_root s) = Some p -> same_kind p p1 -> same_kind p p2 ->
  upd (upd s pi p1) pi p2 = upd s pi p2.
Proof. intros H H1 H2. unfold upd. simpl. erewrite put_put; eauto. Qed.

Lemma rel_view x s s' : strong x -> rel x s s' -> view_of (m_root s) = view_of (m_root s').
Proof. intros Hx [_ _ H]. eapply sim_view; eauto. Qed.

(** ** Callbacks *)
Definition effx (x : act) (eff : cbout -> mstate -> mstate) : Prop :=
  forall o s s', rel x s s' -> rel x (eff o s) (eff o s').

Lemma away_rel x rels s s' : rel x s s' -> rel x (away rels s) (away rels s').
Proof.
  intros [H1 H2 H3]. split.
  - rewrite !away_stack. auto.
  - rewrite !away_log. auto.
  - rewrite !away_root. apply pops_sim; auto.
Qed.

Lemma run_cb_both x c a a' eff msg s s' V :
  strong x -> rel x s s' -> obs_of a = obs_of a' -> effx x eff -> eff_ok g eff ->
  both (fun s1 s1' => rel x s1 s1' /\ m_stack s1 = m_stack s /\ le_p (m_root s) (m_root s1)) V
       (run_cb E c a eff msg s) (run_cb E c a' eff msg s').
Proof.
  intros Hx H Ho He Hk. unfold run_cb. destruct c as [c|]; [|simpl; auto using le_refl].
  pose proof (rel_view Hx H) as Hv. pose proof (r_log H) as Hl.
  rewrite <- Hl, <- Ho. rewrite <- (@proj1 _ _ Hcb c (m_log s) _ _ _ _ Hv Ho).
  set (o := e_cb E c (m_log s) (m_root s) a).
  assert (H0 : rel x (add_log s (Ev c (obs_of a))) (add_log s' (Ev c (obs_of a)))).
  { destruct H as [H1 H2 H3]. split; simpl; auto. rewrite H2. auto. }
  assert (H1 : rel x (away (co_away o) (eff o (add_log s (Ev c (obs_of a)))))
                     (away (co_away o) (eff o (add_log s' (Ev c (obs_of a)))))).
  { apply away_rel, He, H0. }
  pose proof (rel_view Hx H1) as Hv1. pose proof (r_log H1) as Hl1.
  destruct (Hk o (add_log s (Ev c (obs_of a)))) as [K1 K2]. cbn [add_log m_stack m_root] in K1, K2.
  assert (K3 : m_stack (away (co_away o) (eff o (add_log s (Ev c (obs_of a))))) = m_stack s).
  { rewrite away_stack. auto. }
  assert (K4 : le_p (m_root s) (m_root (away (co_away o) (eff o (add_log s (Ev c (obs_of a))))))).
  { rewrite away_root. eapply le_trans; [exact K2|apply le_apply_pops]. }
  destruct (co_res o); simpl; auto.
Qed.

Lemma effx_no x : effx x no_eff.
Proof. intros o s s' H. exact H. Qed.

Lemma effx_pops pi b : b <> Fresh -> effx (On pi b) (pops_eff pi).
Proof.
  intros Hb o s s' H. pose proof H as [_ _ H3]. unfold pops_eff. destruct (get pi (m_root s)) as [p|] eqn:Hg.
  - rewrite <- (app_nil_r pi) in H3. destruct (get_sim _ _ H3 Hg) as (q & Hg' & Hs). rewrite Hg'.
    eapply upd_rel; eauto.
    + apply pops_sim; auto.
    + apply (schema_pops g).
  - rewrite (get_sim_none _ H3 Hg). auto.
Qed.

Lemma effx_cust pi b : b <> Fresh -> effx (On pi b) (cust_eff pi).
Proof.
  intros Hb o s s' H. pose proof H as [_ _ H3]. unfold cust_eff. destruct (get pi (m_root s)) as [p|] eqn:Hg.
  - rewrite <- (app_nil_r pi) in H3. destruct (get_sim _ _ H3 Hg) as (q & Hg' & Hs). rewrite Hg'.
    inversion Hs; subst; auto; try (exfalso; congruence).
    eapply upd_rel; eauto.
    + apply pops_sim. constructor; auto. intros K. match goal with Hk : k <> OPlain -> _ |- _ => rewrite (Hk K) end. auto.
    + rewrite (schema_pops g). auto.
  - rewrite (get_sim_none _ H3 Hg). auto.
Qed.

(** ** Members *)
Lemma check_sim x n ms ms' : sim_ms x n ms ms' -> check_members E ms = check_members E ms'.
Proof.
  induction 1 as [x0 k0|x j m0 p0 p0' r r' Hs0 Ht0 Hp Hr' IH]; simpl; auto.
  rewrite IH, (sim_is_set Hs0 Hp). auto.
Qed.

Lemma pop_sim x p p' : strong x -> sim x p p' ->
  match pop_value p, pop_value p' with
  | Some (v, q), Some (v', q') => v = v' /\ sim x q q' /\ schema_of q = schema_of p
  | None, None => True
  | _, _ => False
  end.
Proof.
  intros Hx H. unfold pop_value. rewrite <- (sim_value Hx H). destruct (get_value p); auto.
  split; auto. split; [apply sim_unset; auto|apply (schema_set_set g)].
Qed.

Lemma set_values_sim x n ms ms' : sim_ms x n ms ms' ->
  snd (set_values E ms) = snd (set_values E ms') /\ sim_ms x n (fst (set_values E ms)) (fst (set_values E ms')).
Proof.
  induction 1 as [x0 k0|x j m0 p0 p0' r r' Hs0 Ht0 Hp Hr' IH]; simpl; [split; auto; constructor|].
  destruct (set_values E r) as [r1 o1], (set_values E r') as [r1' o1']. cbn [fst snd] in IH. destruct IH as [<- IH].
  destruct o1 as [e|vs]; [split; [auto|constructor; auto]|].
  rewrite <- (sim_is_set Hs0 Hp). destruct (is_set p0).
  - pose proof (pop_sim Hs0 Hp) as K. destruct (pop_value p0) as [[v q]|], (pop_value p0') as [[v' q']|]; try tauto.
    + destruct K as (<- & K1 & K2). destruct (e_store E v); (split; [auto|constructor; auto; congruence]).
    + split; [auto|constructor; auto].
  - destruct (m_opt m0); [|split; [auto|constructor; auto]].
    destruct (m_def m0) as [d|]; [destruct (e_store E d)|]; (split; [auto|constructor; auto]).
Qed.

Lemma uni_check_sim x ms ms' cur : sim_ms x 0 ms ms' -> uni_check cur ms = uni_check cur ms'.
Proof.
  intros H. unfold uni_check. destruct (nth_error ms cur) as [[m p]|] eqn:Hn.
  - destruct (ms_nth _ H Hn) as (p' & -> & K1 & K2 & _). rewrite (sim_is_set K1 K2). auto.
  - rewrite (ms_nth_none _ H Hn). auto.
Qed.

Lemma uni_set_sim x ms ms' cur : sim_ms x 0 ms ms' ->
  snd (uni_set_value E cur ms) = snd (uni_set_value E cur ms') /\
  sim_ms x 0 (fst (uni_set_value E cur ms)) (fst (uni_set_value E cur ms')).
Proof.
  intros H. unfold uni_set_value. destruct (nth_error ms cur) as [[m p]|] eqn:Hn.
  - destruct (ms_nth _ H Hn) as (p' & Hn' & K1 & K2 & K3). rewrite Hn'. rewrite <- (sim_is_set K1 K2). destruct (is_set p).
    + pose proof (pop_sim K1 K2) as K. destruct (pop_value p) as [[v q]|], (pop_value p') as [[v' q']|]; try tauto.
      destruct K as (<- & K4 & K5). simpl. split; auto. eapply ms_set; eauto.
    + destruct (m_opt m); [|auto]. destruct (m_def m); auto.
  - rewrite (ms_nth_none _ H Hn). auto.
Qed.

(** ** finish() *)
Definition fin pi (s : mstate) (s1 s1' : mstate) : Prop :=
  rel (On pi Done) s1 s1' /\ m_stack s1 = m_stack s /\ le_p (m_root s) (m_root s1).

Lemma finish_both pi s s' V : rel (On pi Done) s s' ->
  (forall p, get pi (m_root s) = Some p -> isval p = true -> is_set p = true) ->
  both (fin pi s) V (Model.finish E pi s) (Model.finish E pi s').
Proof.
  intros H Hset. unfold Model.finish.
  assert (Hst : strong (On pi Done)) by (destruct pi; simpl; auto).
  assert (Hnf : Done <> Fresh) by discriminate.
  apply at_both with (b := Done) (1 := H). intros p q Hg Hg' Hs.
  assert (Hrun : forall c a a' eff msg, obs_of a = obs_of a' -> effx (On pi Done) eff -> eff_ok g eff ->
    both (fin pi s) V (run_cb E c a eff msg s) (run_cb E c a' eff msg s')).
  { intros c a a' eff msg Ho He Hk. apply run_cb_both with (x := On pi Done); auto. }
  assert (Hupd : forall p1 q1, sim (On [] Done) p1 q1 -> le_p p p1 -> rel (On pi Done) (upd s pi p1) (upd s' pi q1)).
  { intros p1 q1 K1 K2. eapply upd_rel; eauto. symmetry. eapply le_schema; eauto. }
  assert (Hok : forall p1 q1, sim (On [] Done) p1 q1 -> le_p p p1 ->
    both (fin pi s) V (ROk (upd s pi p1)) (ROk (upd s' pi q1))).
  { intros p1 q1 K1 K2. simpl. split; [auto|]. split; auto. simpl. eapply le_put; eauto. }
  assert (Hth : forall e p1 q1, sim (On [] Done) p1 q1 -> le_p p p1 ->
    both (fin pi s) V (RThrow e (upd s pi p1)) (RThrow e (upd s' pi q1))).
  { intros e p1 q1 K1 K2. pose proof (Hupd _ _ K1 K2) as K. split; auto. split; [apply (r_log K)|]. intros _.
    apply (rel_view Hst K). }
  assert (Hrun2 : forall p1 q1 c a msg, sim (On [] Done) p1 q1 -> le_p p p1 ->
    both (fin pi s) V (run_cb E c a no_eff msg (upd s pi p1)) (run_cb E c a no_eff msg (upd s' pi q1))).
  { intros p1 q1 c a msg K1 K2. pose proof (Hupd _ _ K1 K2) as K.
    eapply both_weak; [| |apply run_cb_both with (x := On pi Done) (V := True); auto using effx_no, eff_no].
    - intros s1 s1' (L1 & L2 & L3). split; auto. split; auto. eapply le_trans; [|exact L3]. simpl. eapply le_put; eauto.
    - auto. }
  pose proof (@sim_view g flat (On [] Done) p q I Hs) as Hv.
  assert (Hun : sim (On [] Done) (set_set false p) (set_set false q)) by (apply sim_unset; simpl; auto).
  assert (Hle : le_p p (set_set false p)) by apply le_set_set.
  inversion Hs as [|?|x b b' t v v' cb Hx Hb Hvv|x b b' sd st vals vals' e e' cb Hx Hb Ho Hvals|x b b' st k k' vals vals' e e' ecb cb
    |x b b' k v v' ms ms' i i' ign cb Hx Hb Hvv Hi Hii Hms|x b b' st v v' t tm cur ms ms' i i' cb Hx Hb Hvv Hi Hii Hms|x i i']; subst; try congruence.
  - rewrite <- Hvv by (apply (Hset _ Hg eq_refl)). apply Hrun; auto using effx_no, eff_no.
  - destruct st.
    + rewrite Hvals by auto. apply Hrun; auto using effx_no, eff_no.
    + apply Hrun; auto using effx_pops, eff_pops. cbn [obs_of]; rewrite Hv. auto.
  - apply Hrun; auto using effx_pops, eff_pops. cbn [obs_of]; rewrite Hv. auto.
  - pose proof Hb as (_ & Hem & _). rewrite <- Hem. destruct (b_empty b); [apply Hok; auto|].
    rewrite <- (check_sim Hms). destruct k.
    + destruct (check_members E ms); [apply Hth; auto|]. apply Hrun; auto using effx_pops, eff_pops. cbn [obs_of]; rewrite Hv. auto.
    + destruct (set_values_sim Hms) as [K1 K2]. destruct (set_values E ms) as [ms1 o] eqn:Em.
      destruct (set_values E ms') as [ms1' o'] eqn:Em'. cbn [fst snd] in K1, K2. subst o'.
      apply (@le_set_values g) in Em.
      destruct o as [e|vs].
      * apply Hth.
        -- apply sim_unset; simpl; auto. constructor; auto.
        -- eapply le_trans; [|apply le_set_set]. constructor; auto using le_b_refl, le_i_refl.
      * apply Hrun2; [constructor; auto|constructor; auto using le_b_refl, le_i_refl].
    + destruct (check_members E ms); [apply Hth; auto|]. apply Hrun; auto using effx_cust, eff_cust. cbn [obs_of]; rewrite Hv.
      rewrite Hvv by discriminate. auto.
  - pose proof Hb as (_ & Hem & _). rewrite <- Hem. destruct (b_empty b); [apply Hok; auto|]. destruct st.
    + rewrite <- (Hvv eq_refl) in *. destruct (uni_set_sim cur Hms) as [K1 K2]. destruct (uni_set_value E cur ms) as [ms1 o] eqn:Em.
      destruct (uni_set_value E cur ms') as [ms1' o'] eqn:Em'. cbn [fst snd] in K1, K2. subst o'.
      apply (@le_uni_set_value g) in Em.
      destruct o as [e|vs].
      * apply Hth.
        -- apply sim_unset; simpl; auto. constructor; auto.
        -- eapply le_trans; [|apply le_set_set]. constructor; auto using le_b_refl, le_i_refl.
      * apply Hrun2; [constructor; auto|constructor; auto using le_b_refl, le_i_refl].
    + rewrite <- (uni_check_sim cur Hms). destruct (uni_check cur ms); [apply Hth; auto|].
      apply Hrun; auto using effx_pops, eff_pops. cbn [obs_of]; rewrite Hv. auto.
  - simpl. split; auto. split; auto. apply le_refl.
Qed.

(** ** The calls *)
Inductive chain : list path -> Prop :=
| ch_nil : chain []
| ch_root : chain [[]]
| ch_cons q st r : chain (q :: r) -> chain ((q ++ [st]) :: q :: r).

Definition hdp (l : list path) : path := match l with [] => [] | q :: _ => q end.

Definition std (k : bool) (s s' : mstate) : Prop :=
  chain (m_stack s) /\ exists b, rel (On (hdp (m_stack s)) b) s s' /\ (b = Fresh -> k = true /\ hdp (m_stack s) <> []).

Definition vok (b : stat) (pi : path) (s : mstate) (t : token) : Prop :=
  b = Fresh -> pi = [] -> opener (kind_of (m_root s)) t = true.

Definition is_arr (s : mstate) (q0 : path) : Prop :=
  exists b sd st vals e cb, get q0 (m_root s) = Some (PArr b sd st vals e cb).

Definition astd (q0 : path) (s s1 s1' : mstate) : Prop :=
  m_stack s1 = m_stack s /\ rel (On q0 Open) s1 s1' /\ is_arr s1 q0.

Inductive ok : call -> mstate -> mstate -> (mstate -> mstate -> Prop) -> Prop -> Prop :=
| k_pop pi r s s' : m_stack s = pi :: r -> chain (pi :: r) -> rel (On pi Done) s s' ->
    get pi (m_root s) <> None -> ok CPop s s' (std false) True
| k_disp t b s s' : chain (m_stack s) -> rel (On (hdp (m_stack s)) b) s s' ->
    (b = Fresh -> begins t = true /\ m_stack s <> []) -> (t = TNull -> flat = true) ->
    ok (CDisp t) s s' (std (is_key t)) (vok b (hdp (m_stack s)) s t)
| k_on pi r t b s s' : m_stack s = pi :: r -> chain (pi :: r) -> rel (On pi b) s s' ->
    (b = Fresh -> begins t = true) -> (t = TNull -> flat = true) ->
    ok (COn pi t) s s' (std (is_key t)) (vok b pi s t)
| k_end pi r s s' p q : m_stack s = pi :: r -> chain (pi :: r) ->
    get pi (m_root s) = Some p -> get pi (m_root s') = Some q ->
    rel (On pi Done) (upd s pi (set_set true p)) (upd s' pi (set_set true q)) ->
    ok (CEnd pi) s s' (std false) True
| k_child q0 st r s s' : m_stack s = q0 :: r -> chain (q0 :: r) -> rel (On (q0 ++ [st]) Done) s s' ->
    get (q0 ++ [st]) (m_root s) <> None -> ok (CChild q0) s s' (std false) True
| k_childA q0 r s s' : m_stack s = q0 :: r -> chain (q0 :: r) -> rel (On q0 Open) s s' ->
    is_arr s q0 -> ok (CChild q0) s s' (std false) True
| k_onE q0 t s s' : rel (On q0 Open) s s' -> is_arr s q0 ->
    match t with TSc _ => True | TNull => flat = true | _ => False end ->
    ok (COn (q0 ++ [Elem]) t) s s' (astd q0 s) True
| k_endE q0 s s' b1 b1' ty v cb : is_arr s q0 ->
    get (q0 ++ [Elem]) (m_root s) = Some (PVal b1 ty v cb) ->
    get (q0 ++ [Elem]) (m_root s') = Some (PVal b1' ty v cb) ->
    rel (On q0 Open) (upd s (q0 ++ [Elem]) (set_set true (PVal b1 ty v cb)))
                     (upd s' (q0 ++ [Elem]) (set_set true (PVal b1' ty v cb))) ->
    ok (CEnd (q0 ++ [Elem])) s s' (astd q0 s) True
| k_onV pi t s s' b b' ty v v' cb : get pi (m_root s) = Some (PVal b ty v cb) ->
    get pi (m_root s') = Some (PVal b' ty v' cb) -> (t = TMapStart \/ t = TArrStart) ->
    m_log s = m_log s' -> view_of (m_root s) = view_of (m_root s') ->
    ok (COn pi t) s s' (fun _ _ => False) True.

Section Body.
Variable rec : call -> mstate -> res.
Hypothesis Hrec : forall c s s' Q V, ok c s s' Q V -> both Q V (rec c s) (rec c s').
Hypothesis Hlex : forall c s, lex g s (rec c s).

Lemma at_some s pi p k : get pi (m_root s) = Some p -> at_node s pi k = k p.
Proof. intros H. unfold at_node. rewrite H. auto. Qed.

Lemma kind_set b p : same_kind p (set_set b p).
Proof. destruct p; simpl; auto. Qed.

Lemma chain_one pi : chain [pi] -> pi = [].
Proof. intros H. inversion H; auto. Qed.

Lemma lock_pop s s' Q V : ok CPop s s' Q V -> both Q V (body_pop rec s) (body_pop rec s').
Proof.
  intros H. inversion H as [pi r s0 s0' Hst Hch Hr Hg| | | | | | | |]; subst. unfold body_pop. pose proof (r_stack Hr) as Hs. rewrite <- Hs, Hst.
  destruct r as [|q r].
  - apply chain_one in Hch. subst pi. simpl. split; [constructor|]. exists Done. split; [|discriminate].
    destruct Hr as [_ H2 H3]. split; simpl; auto.
  - inversion Hch as [| |q' st r' Hch' E1]; subst. apply Hrec. eapply k_child with (st := st); simpl; eauto.
    destruct Hr as [_ H2 H3]. split; simpl; auto.
Qed.

Lemma lock_disp t s s' Q V : ok (CDisp t) s s' Q V -> both Q V (body_disp rec t s) (body_disp rec t s').
Proof.
  intros H. inversion H as [|t0 b s0 s0' Hch Hr Hb Ht| | | | | | |]; subst. unfold body_disp. pose proof (r_stack Hr) as Hs. rewrite <- Hs.
  destruct (m_stack s) as [|pi r] eqn:Hst.
  - simpl in *. split; auto. split; [apply (r_log Hr)|]. intros _.
    apply (@rel_view (On [] b)); auto. destruct b; simpl; auto. destruct (Hb eq_refl); tauto.
  - simpl in *. apply Hrec. eapply k_on; eauto. tauto.
Qed.

Lemma up_rel q0 st s s' p : rel (On (q0 ++ [st]) Done) s s' -> get q0 (m_root s) = Some p -> rel (On q0 Open) s s'.
Proof. intros [H1 H2 H3] Hg. split; auto. eapply up_sim; eauto. Qed.

Lemma std_open q0 r s s' b k : m_stack s = q0 :: r -> chain (q0 :: r) -> b <> Fresh -> rel (On q0 b) s s' -> std k s s'.
Proof. intros H1 H2 Hb H3. split; [congruence|]. exists b. rewrite H1. split; [auto|intros K; congruence]. Qed.

Lemma both_throw x s s' e Q V : strong x -> rel x s s' -> both Q V (RThrow e s) (RThrow e s').
Proof. intros Hx H. split; [auto|]. split; [apply (r_log H)|]. intros _. eapply rel_view; eauto. Qed.

Lemma strong_on pi b : b <> Fresh -> strong (On pi b).
Proof. destruct pi, b; simpl; auto. Qed.
Lemma strong_sub pi st b : strong (On (pi ++ [st]) b).
Proof. destruct pi; simpl; auto. Qed.
Local Hint Resolve strong_on strong_sub : core.

Lemma lock_childA q0 r s s' : m_stack s = q0 :: r -> chain (q0 :: r) -> rel (On q0 Open) s s' -> is_arr s q0 ->
  both (std false) True (body_child E g rec q0 s) (body_child E g rec q0 s').
Proof.
  intros Hst Hch Hr (b & sd & st & vals & e & cb & Hg). unfold body_child. apply at_both with (b := Open) (1 := Hr).
  intros p q Hg1 Hg2 Hs. rewrite Hg in Hg1. injection Hg1 as <-.
  inversion Hs as [| | |x b0 b' sd0 st0 vals0 vals' e0 e' cb0 Hx Hb Ho Hv Ht Ha Hd He| | | |]; subst.
  destruct st; [|simpl; eapply std_open; eauto; discriminate].
  cbn [asub] in *. pose proof (pop_sim (x := Off false) I He) as K.
  destruct (pop_value e) as [[v e1]|] eqn:Hp, (pop_value e') as [[v' e1']|] eqn:Hp'; try tauto.
  - destruct K as (<- & K1 & K2). rewrite (Hv eq_refl).
    assert (R : forall w, rel (On q0 Open) (upd s q0 (PArr b sd true w e1 cb)) (upd s' q0 (PArr b' sd true w e1' cb))).
    { intros w. eapply upd_rel; eauto; [|simpl; rewrite K2; auto].
      constructor; auto; cbn [asub]; [rewrite K2; auto|].
      unfold pop_value in Hp, Hp'. destruct (get_value e), (get_value e'); try discriminate.
      injection Hp as _ <-. injection Hp' as _ <-. destruct e, e'; simpl in *; auto. }
    destruct (e_store E v).
    + apply both_throw with (On q0 Open); [apply strong_on; discriminate|apply R].
    + simpl. apply (@std_open q0 r _ _ Open); [auto|auto|discriminate|apply R].
  - apply both_throw with (On q0 Open); [apply strong_on; discriminate|auto].
Qed.

Lemma lock_child q0 s s' Q V : ok (CChild q0) s s' Q V -> both Q V (body_child E g rec q0 s) (body_child E g rec q0 s').
Proof.
  intros H. inversion H as [| | | |q1 st r s0 s0' Hst Hch Hr Hn|q1 r s0 s0' Hst Hch Hr Ha| | |]; subst; [|eapply lock_childA; eauto].
  destruct (get (q0 ++ [st]) (m_root s)) as [c|] eqn:Hgc; [|congruence]. destruct (get_app_some _ _ _ Hgc) as (p & Hgp & Hpc).
  pose proof (up_rel _ _ Hr Hgp) as Ro.
  destruct (isval p) eqn:Hval; [destruct p; discriminate|].
  destruct (get_sim _ _ (r_sim Hr) Hgp) as (q & Hgq & Hs).
  destruct p as [b ty v cb|b sd sto vals e cb|b sto key vals e ecb cb|b k v ms ig ign cb|b sto v ty tm cur ms ig cb|i]; try discriminate.
  - eapply lock_childA; eauto. unfold is_arr; eauto 10.
  - unfold body_child; rewrite (at_some _ _ _ Hgp), (at_some _ _ _ Hgq). destruct st; try discriminate. simpl in Hpc. injection Hpc as ->.
    inversion Hs as [| | | |x b0 b' st0 k0 k' vals0 vals' e0 e' ecb0 cb0 Hx Hb Hv Hk Ht He| | |]; subst. cbn [msub] in *. subst k'.
    eapply both_bind.
    + apply run_cb_both with (x := On (q0 ++ [Elem]) Done) (V := True); auto.
      * cbn [obs_of]. f_equal. apply (@sim_view g flat (On [] Done)); simpl; auto.
      * apply effx_pops. discriminate.
      * apply eff_pops.
    + intros s1 s1' (R1 & S1 & L1). destruct (le_get q0 L1 Hgp) as (p1 & Hg1 & Lp).
      assert (Hst1 : m_stack s1 = q0 :: r) by congruence.
      destruct sto; [|simpl; eapply std_open; [eauto|eauto| |eapply up_rel; eauto]; discriminate].
      unfold at_node. rewrite Hg1. destruct (get_sim _ _ (r_sim R1) Hg1) as (q1 & Hgq1 & Hs1). rewrite Hgq1.
      inversion Lp; subst. 
      inversion Hs1 as [| | | |x9 b9 b9' st9 k9 k9' vals9 vals9' e9 e9' ecb9 cb9 Hx2 Hb2 Hv2 Hk2 Ht2 He2| | |]; subst. cbn [msub] in *. subst k9'.
      pose proof (pop_sim (x := On [] Done) I He2) as K.
      match goal with |- both _ _ (match ?a with _ => _ end) (match ?b with _ => _ end) => destruct a as [[w w1]|], b as [[w' w1']|]; try tauto end.
      * destruct K as (<- & K1 & K2). rewrite (Hv2 eq_refl).
        match goal with |- both _ _ (match _ with Some x => RThrow x (upd s1 q0 (PMap ?bb true ?kk ?vv w1 ?ee ?cc)) | _ => _ end) (match _ with Some y => RThrow y (upd s1' q0 (PMap ?bb' true ?kk ?vv' w1' ?ee ?cc)) | _ => _ end) =>
          assert (R : forall z, rel (On (q0 ++ [Elem]) Done) (upd s1 q0 (PMap bb true kk z w1 ee cc)) (upd s1' q0 (PMap bb' true kk z w1' ee cc))) end.
        { intros z. destruct R1 as [Y1 Y2 Y3]. split; simpl; auto. eapply put_sim with (1 := Y3); eauto; [|simpl; rewrite K2; auto].
          constructor; cbn [msub]; auto. rewrite K2. auto. }
        destruct (e_store E w).
        -- apply both_throw with (On (q0 ++ [Elem]) Done); [auto|apply R].
        -- simpl. eapply std_open; [simpl; eauto|eauto| |eapply up_rel; [apply R|simpl; eapply get_put_same; [eauto|simpl; auto]]]; discriminate.
      * apply both_throw with (On (q0 ++ [Elem]) Done); auto.
  - unfold body_child; rewrite (at_some _ _ _ Hgp), (at_some _ _ _ Hgq). inversion Hs; subst. simpl. eapply std_open; eauto. discriminate.
  - unfold body_child; rewrite (at_some _ _ _ Hgp), (at_some _ _ _ Hgq).
    assert (Hd : disp_of (PUni b sto v ty tm cur ms ig cb) = Some g) by (apply (sim_disp (x := On [st] Done) eq_refl Hs)).
    assert (Hd' : disp_of q = Some g) by (apply (sim_disp (x := On [st] Done) eq_refl Hs)).
    inversion Hs; subst.
    match goal with |- both _ _ (bind (rec _ s) ?k) (bind (rec _ s') ?k') => assert (K : both (std false) True (rec (CEnd q0) s) (rec (CEnd q0) s')) end.
    { apply Hrec. eapply k_end; eauto. eapply upd_rel; [exact Ro|eauto|eauto| | |discriminate].
      - apply sim_set; simpl; auto. apply open_done; auto. apply up1 in Hs. exact Hs.
      - reflexivity. }
    pose proof (Hlex (CEnd q0) s) as L1. pose proof (Hlex (CEnd q0) s') as L2.
    destruct (rec (CEnd q0) s) as [s1|? ?|?|], (rec (CEnd q0) s') as [s1'|? ?|?|]; simpl in K; try tauto; try (simpl; tauto).
    cbn [bind]. destruct (String.eqb tm ""); [|exact K].
    simpl in L1, L2. destruct (le_get q0 L1 Hgp) as (p1 & G1 & M1). destruct (le_get q0 L2 Hgq) as (p1' & G1' & M1').
    unfold at_node. rewrite G1, G1'. rewrite (le_disp M1 Hd), (le_disp M1' Hd'). apply deref_both.
    destruct K as (Kc & b1 & Kr & Kb).
    eapply both_weak; [| |apply Hrec; eapply k_disp with (b := b1); eauto].
    + intros ? ? Y. exact Y.
    + intros _ Hb1. destruct (Kb Hb1). discriminate.
    + intros Hb1. destruct (Kb Hb1). discriminate.
    + discriminate.
Qed.

Lemma lock_end pi s s' Q V : ok (CEnd pi) s s' Q V -> both Q V (body_end E g rec pi s) (body_end E g rec pi s').
Proof.
  intros H. inversion H as [| | |pi0 r s0 s0' p q Hst Hch Hg Hg' Hr| | | |q0 s0 s0' b1 b1' ty v cb Ha Hg Hg' Hr|]; subst; unfold body_end.
  - rewrite (at_some _ _ _ Hg), (at_some _ _ _ Hg'). eapply both_bind.
    + apply finish_both with (V := True); eauto. intros p0 Hp0 Hv0. simpl in Hp0.
      rewrite (@get_put_same pi _ p (set_set true p) Hg (kind_set true p)) in Hp0. injection Hp0 as <-. destruct p; auto.
    + intros s2 s2' (R & Hs2 & L). assert (Hg2 : exists p2, get pi (m_root s2) = Some p2).
      { destruct (@le_get g pi _ _ (set_set true p) L) as (p2 & K & _); [|eauto].
        simpl. eapply get_put_same; eauto. apply kind_set. }
      apply at_both with (b := Done) (1 := R). intros p2 q2 G G' Hs. destruct (sim_disp (x := On [] Done) eq_refl Hs) as [-> ->].
      cbn [pop_if_disp]. apply deref_both. apply Hrec. apply k_pop with pi r; auto; [simpl in Hs2; congruence|congruence].
  - rewrite (at_some _ _ _ Hg), (at_some _ _ _ Hg'). unfold Model.finish.
    assert (K1 : get (q0 ++ [Elem]) (m_root (upd s (q0 ++ [Elem]) (set_set true (PVal b1 ty v cb)))) = Some (set_set true (PVal b1 ty v cb))).
    { simpl. eapply get_put_same; eauto. simpl; auto. }
    assert (K2 : get (q0 ++ [Elem]) (m_root (upd s' (q0 ++ [Elem]) (set_set true (PVal b1' ty v cb)))) = Some (set_set true (PVal b1' ty v cb))).
    { simpl. eapply get_put_same; eauto. simpl; auto. }
    rewrite (at_some _ _ _ K1), (at_some _ _ _ K2). cbn [set_set with_base base_of].
    eapply both_bind.
    + apply run_cb_both with (x := On q0 Open) (V := True); auto using effx_no, eff_no. destruct q0; simpl; auto.
    + intros s2 s2' (R & Hs2 & L). destruct (le_get (q0 ++ [Elem]) L K1) as (p2 & G2 & Lp).
      destruct (get_app_some _ _ _ G2) as (a & Ga & Gc).
      destruct (@get_sim g flat q0 [] Open (m_root s2) (m_root s2') a) as (a' & Ga' & Hsa); [rewrite app_nil_r; apply R|auto|].
      assert (Haa : exists b sd st vals e cb, a = PArr b sd st vals e cb).
      { destruct Ha as (b & sd & st & vals & e & cb0 & Hq). simpl in L.
        assert (Lx : le_p (m_root s) (m_root s2)) by (eapply le_trans; [|exact L]; simpl; eapply le_put; eauto; apply (le_set_set g true (PVal b1 ty v cb))).
        destruct (le_get q0 Lx Hq) as (a1 & Ga1 & La). rewrite Ga in Ga1. injection Ga1 as <-. inversion La; eauto 10. }
      destruct Haa as (b & sd & st & vals & e & cb0 & ->). simpl in Gc. injection Gc as ->.
      inversion Hsa as [| | |x b0 b' sd0 st0 vals0 vals' e0 e' cb1 Hx Hb Ho Hv Ht Has Hd He| | | |]; subst. cbn [asub] in *.
      unfold at_node. rewrite G2. rewrite get_app, Ga'. cbn [get child].
      inversion Lp; subst. pose proof (sim_schema He) as Es. destruct e'; try discriminate Es.
      destruct Hd as [D1 D2]. simpl in D1, D2. unfold disp_of. cbn [base_of]. rewrite D1, D2. cbn [pop_if_disp both].
      split; [auto|]. split; [auto|]. unfold is_arr. eauto 10.
Qed.

(** ** on() *)
Lemma fresh_inv p q : sim (On [] Fresh) p q -> weak g flat true p q.
Proof. intros H. inversion H; subst; auto; simpl in *; tauto. Qed.

Lemma weak_started d p q : weak g flat d p q -> started p = false /\ started q = false.
Proof. intros (_ & _ & H1 & H2 & _). destruct p, q; simpl in *; try tauto. Qed.

Lemma reset_any b p q : sim (On [] b) p q -> started p = false -> sim (On [] Done) (reset p) (reset q).
Proof.
  intros H Hp. destruct b.
  - apply off_done, weak_reset, fresh_inv, H.
  - apply sim_reset, open_done; auto.
  - apply sim_reset, H.
Qed.

Lemma any_open b p q : b <> Fresh -> sim (On [] b) p q -> sim (On [] Open) p q.
Proof. destruct b; intros Hb H; [congruence|exact H|apply done_open, H]. Qed.

Lemma kind_schema p q : schema_of p = schema_of q -> kind_of p = kind_of q.
Proof. destruct p, q; simpl; intros H; try discriminate; auto; congruence. Qed.

Lemma std_any k s s' : std false s s' -> std k s s'.
Proof. intros (H1 & b & H2 & H3). split; auto. exists b. split; auto. intros K. destruct (H3 K); discriminate. Qed.

Section On.
Variables (pi : path) (r : list path) (t : token) (b : stat) (s s' : mstate) (p q : parser).
Hypothesis Hst : m_stack s = pi :: r.
Hypothesis Hch : chain (pi :: r).
Hypothesis Hr : rel (On pi b) s s'.
Hypothesis Hbeg : b = Fresh -> begins t = true.
Hypothesis Hfl : t = TNull -> flat = true.
Hypothesis Hg : get pi (m_root s) = Some p.
Hypothesis Hg' : get pi (m_root s') = Some q.
Hypothesis Hs : sim (On [] b) p q.
Notation Q := (std (is_key t)).
Notation V := (vok b pi s t).

Lemma on_disp : disp_of p = Some g /\ disp_of q = Some g.
Proof. exact (sim_disp (x := On [] b) eq_refl Hs). Qed.

Lemma on_upd b' p1 q1 : sim (On [] b') p1 q1 -> schema_of p1 = schema_of p -> b' <> Fresh ->
  rel (On pi b') (upd s pi p1) (upd s' pi q1).
Proof. intros H1 H2 Hb. eapply upd_rel; eauto. intros K. congruence. Qed.

Lemma on_ok b' p1 q1 : sim (On [] b') p1 q1 -> schema_of p1 = schema_of p -> b' <> Fresh ->
  both Q V (ROk (upd s pi p1)) (ROk (upd s' pi q1)).
Proof. intros H1 H2 Hb. cbn [both]. eapply std_open; [simpl; exact Hst|auto|exact Hb|]. apply on_upd; auto. Qed.

Lemma on_bad e b' p1 q1 : sim (On [] b') p1 q1 -> schema_of p1 = schema_of p -> b' <> Fresh ->
  both Q V (RThrow e (upd s pi p1)) (RThrow e (upd s' pi q1)).
Proof. intros H1 H2 Hb. apply both_throw with (On pi b'); auto. apply on_upd; auto. Qed.

Lemma on_same : b <> Fresh -> both Q V (ROk s) (ROk s').
Proof. intros Hb. cbn [both]. eapply std_open; eauto. Qed.

Lemma on_throw e : (b = Fresh -> pi = [] -> opener (kind_of p) t = false) -> both Q V (RThrow e s) (RThrow e s').
Proof.
  intros H. split; auto. split; [apply (r_log Hr)|]. intros Hv.
  assert (Hx : strong (On pi b)).
  { destruct pi as [|st0 pi0] eqn:Ep; [|simpl; auto]. destruct b eqn:Eb; simpl; auto.
    specialize (H eq_refl eq_refl). specialize (Hv eq_refl eq_refl). simpl in Hg. congruence. }
  apply (rel_view Hx Hr).
Qed.

Lemma on_end p1 q1 : sim (On [] Done) (set_set true p1) (set_set true q1) -> schema_of p1 = schema_of p -> schema_of q1 = schema_of q ->
  both Q V (rec (CEnd pi) (upd s pi p1)) (rec (CEnd pi) (upd s' pi q1)).
Proof.
  intros H1 H2 H3. eapply both_weak with (Q := std false) (V := True); [apply std_any|auto|].
  assert (K : same_kind p p1) by (apply same_kind_schema; auto).
  assert (K' : same_kind q q1) by (apply same_kind_schema; auto).
  apply Hrec. eapply k_end with (p := p1) (q := q1); [simpl; eauto|auto|simpl; eapply get_put_same; eauto|simpl; eapply get_put_same; eauto|].
  rewrite (upd_upd _ _ _ _ Hg), (upd_upd _ _ _ _ Hg'); auto.
  - apply on_upd; auto; [|discriminate]. rewrite (schema_set_set g). auto.
  - apply same_kind_schema. rewrite (schema_set_set g). auto.
  - apply same_kind_schema. rewrite (schema_set_set g). auto.
Qed.

Lemma on_end0 : b <> Fresh -> isval p = false -> started p = false -> both Q V (rec (CEnd pi) s) (rec (CEnd pi) s').
Proof.
  intros Hb Hv Hsd.
  assert (K : sim (On [] Done) (set_set true p) (set_set true q)).
  { apply sim_set; simpl; auto. apply open_done; auto. eapply any_open; eauto. }
  pose proof (@on_end p q K eq_refl eq_refl) as Y. rewrite (@upd_same s pi p Hg), (@upd_same s' pi q Hg') in Y. exact Y.
Qed.

Lemma on_nul : started p = false -> both Q V (on_null g rec pi p s) (on_null g rec pi q s').
Proof.
  intros Hsd. unfold on_null. destruct on_disp as [-> ->]. cbn [pop_if_disp]. apply deref_both.
  eapply both_weak with (Q := std false) (V := True); [apply std_any|auto|].
  apply Hrec. apply k_pop with pi r; [simpl; auto|auto| |].
  - apply on_upd; [eapply reset_any; eauto|apply (schema_reset g)|discriminate].
  - cbn [upd m_root]. erewrite get_put_same; eauto; [discriminate|]. apply same_kind_schema. symmetry. apply (schema_reset g).
Qed.

Lemma on_push st b' p1 q1 : sim (On [st] b') p1 q1 -> schema_of p1 = schema_of p -> (b' = Fresh -> is_key t = true) ->
  both Q V (ROk (push (upd s pi p1) (pi ++ [st]))) (ROk (push (upd s' pi q1) (pi ++ [st]))).
Proof.
  intros H1 H2 Hb. cbn [both]. split.
  - cbn [push set_stack upd m_stack]. rewrite Hst. constructor. auto.
  - exists b'. split; [cbn [push set_stack upd m_stack hdp]; eapply push_rel; eauto|].
    intros K. split; [auto|]. cbn [push set_stack upd m_stack hdp]. destruct pi; discriminate.
Qed.
End On.

Lemma lock_onV pi t s s' b b' ty v v' cb : get pi (m_root s) = Some (PVal b ty v cb) ->
  get pi (m_root s') = Some (PVal b' ty v' cb) -> (t = TMapStart \/ t = TArrStart) ->
  m_log s = m_log s' -> view_of (m_root s) = view_of (m_root s') ->
  both (fun _ _ => False) True (body_on E g rec pi t s) (body_on E g rec pi t s').
Proof.
  intros H1 H2 Ht Hl Hv. unfold body_on. rewrite (at_some _ _ _ H1), (at_some _ _ _ H2).
  destruct Ht; subst t; cbn [on_val throw_unexpected both]; auto.
Qed.

Lemma upd_elem s q0 b sd st vals e cb e1 : get q0 (m_root s) = Some (PArr b sd st vals e cb) ->
  upd s (q0 ++ [Elem]) e1 = upd s q0 (PArr b sd st vals e1 cb).
Proof. intros H. unfold upd. rewrite (put_app _ _ _ _ H). auto. Qed.

Lemma lock_onE q0 t s s' : rel (On q0 Open) s s' -> is_arr s q0 ->
  match t with TSc _ => True | TNull => flat = true | _ => False end ->
  both (astd q0 s) True (body_on E g rec (q0 ++ [Elem]) t s) (body_on E g rec (q0 ++ [Elem]) t s').
Proof.
  intros Hr Ha Ht. pose proof Ha as (b & sd & st & vals & e & cb & Hg).
  destruct (@get_sim g flat q0 [] Open (m_root s) (m_root s') _ ltac:(rewrite app_nil_r; apply Hr) Hg) as (q & Hg' & Hs).
  inversion Hs as [| | |x b0 b' sd0 st0 vals0 vals' e0 e' cb1 Hx Hb Ho Hv Htm Has Hd He| | | |]; subst. cbn [asub] in *.
  assert (Ge : get (q0 ++ [Elem]) (m_root s) = Some e) by (rewrite get_app, Hg; auto).
  assert (Ge' : get (q0 ++ [Elem]) (m_root s') = Some e') by (rewrite get_app, Hg'; auto).
  assert (Hup : forall e1 e1', sim (Off false) e1 e1' -> schema_of e1 = schema_of e -> vdisp e1 /\ vdisp e1' ->
    rel (On q0 Open) (upd s (q0 ++ [Elem]) e1) (upd s' (q0 ++ [Elem]) e1')).
  { intros e1 e1' K1 K2 K3. rewrite (upd_elem _ _ _ Hg), (upd_elem _ _ _ Hg'). eapply upd_rel; eauto; [|simpl; rewrite K2; auto].
    constructor; auto. rewrite K2. auto. }
  assert (Hth : forall x, both (astd q0 s) True (RThrow x s) (RThrow x s')).
  { intros x. apply both_throw with (On q0 Open); auto. apply strong_on. discriminate. }
  unfold body_on. rewrite (at_some _ _ _ Ge), (at_some _ _ _ Ge').
  pose proof (sim_schema He) as Es.
  destruct e as [b1 ty v cb1|b1 sd1 st1 vals1 e1 cb1|b1 st1 k1 vals1 e1 ecb1 cb1|b1 k1 v1 ms1 ig1 ign1 cb1|b1 st1 v1 ty1 tm1 cur1 ms1 ig1 cb1|i1];
    destruct e' as [b2 ty2 v2 cb2|b2 sd2 st2 vals2 e2 cb2|b2 st2 k2 vals2 e2 ecb2 cb2|b2 k2 v2 ms2 ig2 ign2 cb2|b2 st2 v2 ty2 tm2 cur2 ms2 ig2 cb2|i2];
    try discriminate Es.
  - simpl in Es. injection Es as <- <-. destruct Hd as [D1 D2]. simpl in D1, D2.
    destruct t; try tauto; cbn [on_val].
    + unfold on_null. unfold disp_of. cbn [base_of]. rewrite D1, D2. cbn [pop_if_disp both reset]. split; [auto|]. split.
      * apply Hup; simpl; auto. constructor; simpl; auto; [|discriminate]. split; [auto|split; [auto|discriminate]].
      * rewrite (upd_elem _ _ _ Hg). unfold is_arr. cbn [upd m_root]. do 6 eexists. eapply get_put_same; [eauto|simpl; auto].
    + destruct (takes_scalar ty x); [|apply Hth].
      assert (K : forall bb, same_kind (PVal b1 ty v cb1) (PVal bb ty (VSc x) cb1)) by (intros; simpl; auto).
      assert (K' : forall bb, same_kind (PVal b2 ty v2 cb1) (PVal bb ty (VSc x) cb1)) by (intros; simpl; auto).
      eapply both_weak with (V := True); [|auto|apply Hrec; eapply k_endE].
      * intros z z' (Y1 & Y2 & Y3). split; [exact Y1|auto].
      * rewrite (upd_elem _ _ _ Hg). unfold is_arr. cbn [upd m_root]. do 6 eexists. eapply get_put_same; [eauto|simpl; auto].
      * cbn [upd m_root]. eapply get_put_same; eauto.
      * cbn [upd m_root]. eapply get_put_same; eauto.
      * cbn [set_set with_base base_of]. rewrite (upd_upd _ _ _ _ Ge), (upd_upd _ _ _ _ Ge'); auto.
        apply Hup; simpl; auto. constructor; simpl; auto. split; [auto|split; [auto|discriminate]].
  - assert (sd1 = false) by (apply (closed_started He); simpl; auto). subst sd1.
    destruct t; try tauto.
    + rewrite Ht in Htm. discriminate Htm.
    + pose proof (sim_started He I) as Y. simpl in Y. subst sd2. apply Hth.
  - destruct t; try tauto; [rewrite Ht in Htm; discriminate Htm|apply Hth].
  - destruct t; try tauto; [rewrite Ht in Htm; discriminate Htm|apply Hth].
  - discriminate Htm.
  - discriminate Htm.
Qed.

Lemma lock_enter pi r t b1 sd st vals e cb s s' b1' vals' e' :
  m_stack s = pi :: r -> chain (pi :: r) -> rel (On pi Open) s s' ->
  get pi (m_root s) = Some (PArr b1 sd st vals e cb) ->
  get pi (m_root s') = Some (PArr b1' sd st vals' e' cb) ->
  sim (On [] Open) (PArr b1 sd st vals e cb) (PArr b1' sd st vals' e' cb) ->
  (t = TMapStart \/ t = TArrStart) ->
  both (std (is_key t)) True (arr_enter g rec pi (PArr b1 sd st vals e cb) t s) (arr_enter g rec pi (PArr b1' sd st vals' e' cb) t s').
Proof.
  intros Hst Hch Hr Hg Hg' Hs Ht.
  destruct (sim_disp (x := On [] Open) eq_refl Hs) as [D D']. unfold disp_of in D, D'. cbn [base_of] in D, D'.
  unfold arr_enter. rewrite D, D'. apply deref_both.
  inversion Hs as [| | |x b0 b' sd0 st0 vals0 vals0' e0 e0' cb1 Hx Hb Ho Hv Htm Has Hd He| | | |]; subst. cbn [asub] in *.
  pose proof (sim_attach He) as Ha. pose proof (sim_schema He) as Es.
  assert (Esd : schema_of (set_disp (Some g) e) = schema_of e).
  { symmetry. apply (@le_schema g), le_set_disp. }
  destruct (isval e) eqn:Hval.
  - destruct e as [be tye ve cbe| | | | |]; try discriminate. destruct e' as [be' tye' ve' cbe'| | | | |]; try discriminate Es.
    simpl in Es. injection Es as <- <-. cbn [set_disp].
    eapply both_weak with (Q := fun _ _ => False) (V := True); [tauto|auto|]. apply Hrec.
    eapply k_onV; [| |exact Ht| |].
    + cbn [push set_stack upd m_root]. rewrite get_app. erewrite get_put_same; [|eassumption|simpl; auto]. cbn [set_not_empty with_base base_of get child]. reflexivity.
    + cbn [push set_stack upd m_root]. rewrite get_app. erewrite get_put_same; [|eassumption|simpl; auto]. cbn [set_not_empty with_base base_of get child]. reflexivity.
    + apply (r_log Hr).
    + assert (R : rel (On pi Open) (upd s pi (set_not_empty (PArr b1 sd st vals (PVal be tye ve cbe) cb)))
                                   (upd s' pi (set_not_empty (PArr b1' sd st vals' (PVal be' tye ve' cbe) cb)))).
      { eapply upd_rel; eauto. apply sim_not_empty; simpl; auto. }
      apply rel_view in R; [|apply strong_on; discriminate]. cbn [upd m_root] in R. cbn [push set_stack upd m_root].
      erewrite view_put; [|shelve]. rewrite R. apply view_put. reflexivity.
      Unshelve. reflexivity.
  - assert (Hv1 : isval (set_disp (Some g) e) = false) by (destruct e; auto).
    eapply both_weak; [| |apply Hrec; eapply k_on with (b := Open)].
    + intros ? ? Y. exact Y.
    + intros _ K. discriminate K.
    + cbn [push set_stack upd m_stack]. rewrite Hst. reflexivity.
    + constructor. auto.
    + eapply push_rel; eauto.
      * apply sim_not_empty; simpl; auto. constructor; cbn [asub]; simpl; auto; [|apply off_open; exact Ha]. rewrite Esd. auto.
      * rewrite (schema_not_empty g). simpl. rewrite Esd. auto.
    + discriminate.
    + intros ->. destruct Ht; discriminate.
Qed.

Lemma lock_member pi r t b s s' p q (ms ms' : list (mspec * parser)) ign nm :
  m_stack s = pi :: r -> chain (pi :: r) -> rel (On pi b) s s' -> b <> Fresh ->
  get pi (m_root s) = Some p -> get pi (m_root s') = Some q -> sim (On [] Open) p q ->
  match p with PObj _ _ _ _ _ _ _ | PUni _ _ _ _ _ _ _ _ _ => True | _ => False end ->
  lookup nm ms = lookup nm ms' ->
  both (std (is_key t)) True (on_member E g pi p ms ign nm s) (on_member E g pi q ms' ign nm s').
Proof.
  intros Hst Hch Hr Hb Hg Hg' Hs Hp Hl. unfold on_member. rewrite <- Hl.
  destruct (sim_disp (x := On [] Open) eq_refl Hs) as [D D']. rewrite D, D'.
  assert (Hn : sim (On [] Open) (set_not_empty p) (set_not_empty q)) by (apply sim_not_empty; simpl; auto).
  assert (Hpu : forall st, both (std (is_key t)) True (ROk (push (upd s pi (set_not_empty p)) (pi ++ [st])))
                                (ROk (push (upd s' pi (set_not_empty q)) (pi ++ [st])))).
  { intros st. eapply both_weak with (V := vok Open pi s t); [intros ? ? Y; exact Y|intros _ K; discriminate K|].
    assert (K : sim (On [st] Open) (set_not_empty p) (set_not_empty q)) by (apply push1; [exact Hn|destruct p; simpl in *; tauto]).
    cbn [both]. split.
    - cbn [push set_stack upd m_stack]. rewrite Hst. constructor. auto.
    - exists Open. split; [|discriminate]. cbn [push set_stack upd m_stack hdp]. eapply push_rel; eauto. apply (schema_not_empty g). }
  destruct (lookup nm ms) as [i|]; [apply deref_both, Hpu|]. destruct ign; [apply deref_both, Hpu|].
  apply both_throw with (On pi Open); [apply strong_on; discriminate|]. eapply upd_rel; eauto; [apply (schema_not_empty g)|discriminate].
Qed.

Lemma lock_on pi r t b s s' : m_stack s = pi :: r -> chain (pi :: r) -> rel (On pi b) s s' ->
  (b = Fresh -> begins t = true) -> (t = TNull -> flat = true) ->
  both (std (is_key t)) (vok b pi s t) (body_on E g rec pi t s) (body_on E g rec pi t s').
Proof.
  intros Hst Hch Hr Hbeg Hfl. unfold body_on. apply at_both with (b := b) (1 := Hr). intros p q Hg Hg' Hs.
  pose proof (sim_schema Hs) as Hsc. destruct (sim_disp (x := On [] b) eq_refl Hs) as [D D'].
  assert (Hnf : b <> Fresh -> sim (On [] Open) p q) by (intros; eapply any_open; eauto).
  assert (Hfr : begins t = false -> b <> Fresh) by (intros K1 K2; specialize (Hbeg K2); congruence).
  assert (Hthrow : opener (kind_of p) t = false -> both (std (is_key t)) (vok b pi s t) (throw_unexpected t s) (throw_unexpected t s')).
  { intros K. eapply on_throw; eauto. }
  destruct p as [b1 ty v cb|b1 sd st vals e cb|b1 st key vals e ecb cb|b1 k v ms ig ign cb|b1 st v ty tm cur ms ig cb|i];
    destruct q as [b1' ty' v' cb'|b1' sd' st' vals' e' cb'|b1' st' key' vals' e' ecb' cb'|b1' k' v' ms' ig' ign' cb'|b1' st' v' ty' tm' cur' ms' ig' cb'|i'];
    try discriminate Hsc.
  - simpl in Hsc. injection Hsc as <- <-. destruct t; cbn [on_val]; try (apply Hthrow; reflexivity).
    + eapply on_nul; eauto.
    + destruct (takes_scalar ty x) eqn:Hty.
      * eapply on_end; eauto. cbn [set_set with_base base_of]. constructor; simpl; auto. split; [auto|split; auto].
      * apply Hthrow. simpl. rewrite takes_scalar_eq in Hty. auto.
  - assert (Esd : sd = sd' /\ (b = Fresh -> sd = false)).
    { destruct b.
      - pose proof (weak_started (fresh_inv Hs)) as [Y1 Y2]. simpl in Y1, Y2. subst. auto.
      - pose proof (sim_started Hs I) as Y. split; [exact Y|discriminate].
      - pose proof (sim_started Hs I) as Y. split; [exact Y|discriminate]. }
    destruct Esd as [<- Hsd].
    simpl in Hsc. injection Hsc as <- Hse <-.
    assert (Hopen : sd = true -> b = Open).
    { intros ->. destruct b; auto; [specialize (Hsd eq_refl); discriminate|].
      assert (Y : started (PArr b1 true st vals e cb) = false) by (apply (closed_started Hs); simpl; auto). discriminate Y. }
    assert (Ha : is_arr s pi) by (unfold is_arr; eauto 10).
    assert (Henter : sd = true -> t = TMapStart \/ t = TArrStart -> both (std (is_key t)) (vok b pi s t)
      (arr_enter g rec pi (PArr b1 sd st vals e cb) t s) (arr_enter g rec pi (PArr b1' sd st vals' e' cb) t s')).
    { intros K1 K2. pose proof (Hopen K1). subst b. eapply both_weak with (V := True); [intros ? ? Y; exact Y|auto|].
      eapply lock_enter; eauto. }
    destruct t; cbn [on_arr]; try (apply Hthrow; reflexivity).
    + destruct sd.
      * rewrite (Hopen eq_refl) in *. eapply both_weak; [| |apply Hrec; eapply k_onE; eauto]; auto.
        intros z z' (Y1 & Y2 & Y3). eapply std_open; [rewrite Y1; eauto|auto| |eauto]; discriminate.
      * eapply on_nul; eauto.
    + destruct sd; [|apply Hthrow; reflexivity]. pose proof (Hopen eq_refl). subst b. eapply both_bind.
      * eapply both_weak; [| |apply Hrec; eapply k_onE; eauto; exact I]; auto. intros z z' Y. exact Y.
      * intros z z' (Y1 & Y2 & Y3). apply at_both with (b := Open) (1 := Y2). intros p1 q1 G1 G1' S1.
        eapply both_weak with (V := True); [intros w w' W; exact W|auto|]. apply Hrec. eapply k_childA.
        -- cbn [upd m_stack]. rewrite Y1. eauto.
        -- auto.
        -- eapply upd_rel; eauto; [apply sim_not_empty; simpl; auto|apply (schema_not_empty g)].
        -- destruct Y3 as (b0 & sd0 & st0 & vals0 & e0 & cb0 & G0). rewrite G0 in G1. injection G1 as <-.
           unfold is_arr. cbn [upd m_root]. do 6 eexists. eapply get_put_same; [eauto|simpl; auto].
    + destruct sd; [apply Henter; auto|apply Hthrow; reflexivity].
    + destruct sd; [apply Henter; auto|]. cbn [reset].
      pose proof (reset_any Hs eq_refl) as K. cbn [reset] in K.
      eapply on_ok with (b' := Open); eauto; try discriminate; [|simpl; rewrite (schema_reset g); auto].
      inversion K as [| | |x b0 b' sd0 st0 vals0 vals0' e0 e0' cb1 Hx Hb Ho Hv Htm Has Hd He| | | |]; subst. constructor; simpl; auto.
    + pose proof (Hnf (Hfr eq_refl)) as K. eapply on_end; eauto.
      apply sim_set; simpl; auto.
      inversion K as [| | |x b0 b' sd0 st0 vals0 vals0' e0 e0' cb1 Hx Hb Ho Hv Htm Has Hd He| | | |]; subst. constructor; simpl; auto. discriminate.
  - destruct t; cbn [on_map]; try (apply Hthrow; reflexivity).
    + eapply on_nul; eauto.
    + eapply on_ok with (b' := Done); eauto; [eapply reset_any; eauto|discriminate].
    + pose proof (Hnf (Hfr eq_refl)) as K. unfold disp_of in D, D'. cbn [base_of] in D, D'. rewrite D, D'. apply deref_both.
      inversion K as [| | | |x b0 b' st0 k0 k0' vals0 vals0' e0 e0' ecb0 cb0 Hx Hb Hv Hk Ht He| | |]; subst. cbn [msub] in *.
      eapply on_push with (b' := Fresh); eauto.
      apply sim_not_empty; simpl; auto. constructor; cbn [msub]; simpl; auto. constructor. apply wk_inv. exact He.
    + eapply on_end0; eauto.
  - simpl in Hsc. injection Hsc as <- Hms <- <-. destruct t; cbn [on_obj]; try (apply Hthrow; reflexivity).
    + eapply on_nul; eauto.
    + eapply on_ok with (b' := Done); eauto; [eapply reset_any; eauto|apply (schema_reset g (PObj _ _ _ _ _ _ _))|discriminate].
    + eapply both_weak with (V := True); [intros ? ? Y; exact Y|auto|]. eapply lock_member; eauto; try exact I; eapply lookup_schema; eauto.
    + eapply on_end0; eauto.
  - simpl in Hsc. injection Hsc as <- <- <- Hms <-. destruct t; cbn [on_uni]; try (apply Hthrow; reflexivity).
    + eapply on_nul; eauto.
    + destruct (takes_scalar ty x) eqn:Hty; [|apply Hthrow; simpl; rewrite takes_scalar_eq in Hty; auto].
      pose proof (reset_any Hs eq_refl) as K.
      assert (R : rel (On pi Done) (upd s pi (reset (PUni b1 st v ty tm cur ms ig cb))) (upd s' pi (reset (PUni b1' st v' ty tm cur' ms' ig' cb)))).
      { eapply on_upd; eauto; [apply (schema_reset g (PUni _ _ _ _ _ _ _ _ _))|discriminate]. }
      eapply both_weak with (V := True); [intros ? ? Y; exact Y|auto|].
      eapply both_bind with (Q1 := fun z z' => m_stack z = (pi ++ [Mem (match lookup x ms with Some i => i | None => 0 end)]) :: pi :: r /\
         rel (On (pi ++ [Mem (match lookup x ms with Some i => i | None => 0 end)]) Open) z z' /\ lookup x ms <> None /\
         exists b2 v2 c2 ms2 i2, get pi (m_root z) = Some (PUni b2 st v2 ty tm c2 ms2 i2 cb)).
      * unfold on_member. rewrite <- (lookup_schema x _ _ Hms).
        assert (Dr : disp_of (reset (PUni b1 st v ty tm cur ms ig cb)) = Some g /\ disp_of (reset (PUni b1' st v' ty tm cur' ms' ig' cb)) = Some g).
        { apply (sim_disp (x := On [] Done) eq_refl K). }
        destruct Dr as [-> ->].
        assert (Gp : get pi (m_root (upd s pi (reset (PUni b1 st v ty tm cur ms ig cb)))) = Some (reset (PUni b1 st v ty tm cur ms ig cb))).
        { cbn [upd m_root]. eapply get_put_same; [eauto|simpl; auto]. }
        assert (Gq : get pi (m_root (upd s' pi (reset (PUni b1' st v' ty tm cur' ms' ig' cb)))) = Some (reset (PUni b1' st v' ty tm cur' ms' ig' cb))).
        { cbn [upd m_root]. eapply get_put_same; [eauto|simpl; auto]. }
        assert (Sn : sim (On [] Open) (set_not_empty (reset (PUni b1 st v ty tm cur ms ig cb))) (set_not_empty (reset (PUni b1' st v' ty tm cur' ms' ig' cb)))).
        { apply sim_not_empty; simpl; auto. apply done_open. exact K. }
        destruct (lookup x ms) as [n|].
        -- apply deref_both. cbn [both]. split; [cbn [push set_stack upd m_stack]; rewrite Hst; auto|]. split; [|split; [discriminate|]].
           ++ eapply push_rel; [exact R|eauto|eauto| |apply (schema_not_empty g)]. apply push1; [exact Sn|simpl; auto].
           ++ cbn [push set_stack upd m_root]. do 5 eexists. eapply get_put_same; [eauto|simpl; auto].
        -- apply both_throw with (On pi Open); [apply strong_on; discriminate|]. eapply upd_rel; [exact R|eauto|eauto|exact Sn|apply (schema_not_empty g)|discriminate].
      * intros z z' (Z1 & Z2 & Z3 & b2 & v2 & c2 & ms2 & i2 & Gz). rewrite <- (lookup_schema x _ _ Hms).
        destruct (lookup x ms) as [n|]; [|congruence].
        destruct (get_sim _ _ (r_sim Z2) Gz) as (qz & Gz' & Sz).
        rewrite (at_some _ _ _ Gz), (at_some _ _ _ Gz').
        inversion Sz as [| | | | | |x8 bb8 b8 st8 vv8 v8 t8 tm8 cur8 mm8 ms8 ii8 i8 cb8 Hx8 Hb8 Hv8 Ho8 Hi8 Hm8|]; subst. cbn [both].
        assert (RR : rel (On (pi ++ [Mem n]) Open) (upd z pi (PUni b2 st v2 ty tm n ms2 i2 cb)) (upd z' pi (PUni b8 st v8 ty tm n ms8 i8 cb))).
        { destruct Z2 as [Y1 Y2 Y3]. split; [exact Y1|exact Y2|]. cbn [upd m_root]. eapply put_sim with (1 := Y3); eauto; try discriminate.
          constructor; auto. }
        split; [cbn [upd m_stack]; rewrite Z1; constructor; auto|]. exists Open. cbn [upd m_stack]. rewrite Z1. split; [exact RR|discriminate].
    + destruct (String.eqb tm "") eqn:Etm.
      * eapply on_throw; eauto. intros _ _. simpl. rewrite Etm. auto.
      * eapply on_ok with (b' := Done); eauto; [eapply reset_any; eauto|apply (schema_reset g (PUni _ _ _ _ _ _ _ _ _))|discriminate].
    + destruct (String.eqb tm "") eqn:Etm; [eapply on_throw; eauto|].
      destruct (String.eqb k tm); [eapply on_same; eauto|eapply on_throw; eauto].
    + eapply on_end0; eauto.
  - assert (Hb : b <> Fresh).
    { intros ->. pose proof (fresh_inv Hs) as (_ & Y & _). discriminate Y. }
    pose proof (Hnf Hb) as K. inversion K as [| | | | | | |x i0 i0' Hx Hi]; subst. pose proof Hi as [Hib Hist]. 
    assert (Hup : forall l, both (std (is_key t)) (vok b pi s t) (ROk (upd s pi (PIgn (mkI (ig_b i) l)))) (ROk (upd s' pi (PIgn (mkI (ig_b i') l))))).
    { intros l. eapply on_ok with (b' := Open); eauto; [|discriminate]. constructor; simpl; auto. split; auto. }
    assert (Hsame : both (std (is_key t)) (vok b pi s t) (ROk s) (ROk s')) by (eapply on_same; eauto).
    assert (He : both (std (is_key t)) (vok b pi s t) (rec (CEnd pi) s) (rec (CEnd pi) s')) by (eapply on_end0; eauto).
    assert (He1 : forall l, both (std (is_key t)) (vok b pi s t) (rec (CEnd pi) (upd s pi (PIgn (mkI (ig_b i) l)))) (rec (CEnd pi) (upd s' pi (PIgn (mkI (ig_b i') l))))).
    { intros l. eapply on_end; eauto. apply sim_set; simpl; auto. constructor; simpl; auto. split; auto. }
    destruct t; cbn [on_ign]; try rewrite <- Hist.
    + eapply on_nul; eauto.
    + destruct (ig_st i); auto.
    + apply Hup.
    + destruct (ig_st i) as [|[] ?]; auto; eapply on_throw; eauto; congruence.
    + destruct (ig_st i) as [|[] [|? ?]]; auto; try (eapply on_throw; eauto; congruence).
    + apply Hup.
    + destruct (ig_st i) as [|[] [|? ?]]; auto; try (eapply on_throw; eauto; congruence).
Qed.

Lemma lock_body c s s' Q V : ok c s s' Q V -> both Q V (Model.body E g rec c s) (Model.body E g rec c s').
Proof.
  intros H. unfold Model.body. rewrite !(proj2 Hcb). destruct c as [|t|pi t|pi|pi]; cbn [call_body].
  - apply lock_pop; auto.
  - apply lock_disp; auto.
  - inversion H; subst; [eapply lock_on|eapply lock_onE|eapply lock_onV]; eauto.
  - apply lock_end; auto.
  - apply lock_child; auto.
Qed.
End Body.

Lemma lock_exec f : forall c s s' Q V, ok c s s' Q V -> both Q V (exec E g f c s) (exec E g f c s').
Proof.
  induction f as [|f IH]; intros c s s' Q V H; cbn [exec]; [simpl; auto|].
  apply lock_body; auto. intros. apply exec_le.
Qed.

(** ** Token sequences *)

(** A value follows the start of the text and every key. *)
Fixpoint values_lead (f : bool) (ts : list token) : Prop :=
  match ts with [] => True | t :: r => (f = true -> begins t = true) /\ values_lead (is_key t) r end.
Fixpoint after_key (f : bool) (ts : list token) : bool :=
  match ts with [] => f | t :: r => after_key (is_key t) r end.

Lemma values_lead_app ts1 : forall f ts2, values_lead f (ts1 ++ ts2) <-> values_lead f ts1 /\ values_lead (after_key f ts1) ts2.
Proof. induction ts1 as [|t r IH]; intros f ts2; simpl; [tauto|]. rewrite IH. tauto. Qed.

(** [W]: no token has been given to the root yet. *)
Definition stdv (W k : bool) (s s' : mstate) : Prop :=
  chain (m_stack s) /\ exists b, rel (On (hdp (m_stack s)) b) s s' /\
    (b = Fresh -> k = true /\ m_stack s <> [] /\ (W = false -> hdp (m_stack s) <> [])).

Lemma std_v k s s' : std k s s' -> stdv false k s s'.
Proof.
  intros (H1 & b & H2 & H3). split; auto. exists b. split; auto. intros K. destruct (H3 K) as [Y1 Y2].
  split; auto. split; auto. intros Y. rewrite Y in Y2. auto.
Qed.

Lemma stdv_log W k s s' : stdv W k s s' -> m_log s = m_log s' /\ m_stack s = m_stack s'.
Proof. intros (_ & b & [H1 H2 _] & _). auto. Qed.

Lemma stdv_view k s s' : stdv false k s s' -> view_of (m_root s) = view_of (m_root s').
Proof.
  intros (_ & b & H & Hb). eapply rel_view; [|exact H]. destruct (hdp (m_stack s)) eqn:E1; [|simpl; auto].
  destruct b; simpl; auto. destruct (Hb eq_refl) as (_ & _ & Y). destruct (Y eq_refl eq_refl).
Qed.

Definition opens_root (W : bool) (K : kind) (ts : list token) : Prop :=
  W = true -> exists t r, ts = t :: r /\ opener K t = true.

Definition nil_b (ts : list token) : bool := match ts with [] => true | _ => false end.

Lemma lock_run ts : forall W k s s', stdv W k s s' -> values_lead k ts -> (flat = true \/ ~ In TNull ts) ->
  both (stdv (W && nil_b ts) (after_key k ts)) (opens_root W (kind_of (m_root s)) ts) (run E g ts s) (run E g ts s').
Proof.
  induction ts as [|t r IH]; intros W k s s' H Hp Hn; cbn [run].
  - cbn [both nil_b after_key]. rewrite andb_true_r. exact H.
  - destruct H as (Hc & b & Hr & Hb). destruct Hp as [Hp1 Hp2]. cbn [nil_b after_key]. rewrite andb_false_r.
    assert (Hn' : flat = true \/ ~ In TNull r) by (destruct Hn as [|Hn]; auto; right; simpl in Hn; tauto).
    eapply both_bind.
    + unfold dispatch. assert (Hf : fuel_for s = fuel_for s').
      { unfold fuel_for. rewrite (r_stack Hr), (height_schema (m_root s) _ (sim_schema (r_sim Hr))). auto. }
      rewrite <- Hf. eapply both_weak with (Q := std (is_key t)); [intros z z' Y; exact Y| |apply lock_exec; eapply k_disp with (b := b); eauto].
      * intros Ho Eb Ehd. destruct (Hb Eb) as (_ & _ & Y). destruct W; [|destruct (Y eq_refl Ehd)].
        destruct (Ho eq_refl) as (t0 & r0 & E0 & Y0). congruence.
      * intros Eb. destruct (Hb Eb) as (Y1 & Y2 & _). auto.
      * intros ->. destruct Hn as [|Hn]; auto. simpl in Hn. tauto.
    + intros z z' Y. eapply both_weak; [| |apply (IH false (is_key t) z z'); auto].
      * intros w w' Y'. exact Y'.
      * intros _ K. discriminate K.
      * apply std_v, Y.
Qed.
End Lock.
