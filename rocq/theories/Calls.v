(** What callbacks answer: every answer but the last one of a failing call is
    "true", and an answer other than "true" is the error of the call.  For every
    token sequence, every state and all callbacks. *)

From Verif Require Import Spec Model Infra Total Safe Refine Main Api ApiProofs History ApiFacts.
Local Open Scope string_scope.
Set Implicit Arguments.

Section Calls.
Variable E : env.
Variable g : nat.

(** [calls l l' r]: history [l'] extends [l] by callback invocations; all but the
    last one returned true, the last one ended with [r] (true, if there are none).
    [T]: the parsers of the declaration at the time, [a]: the argument. *)
Inductive calls (l : list event) : list event -> cbres -> Prop :=
| calls_none : calls l l CTrue
| calls_next l' c T a : calls l l' CTrue ->
    calls l (l' ++ [Ev c (obs_of a)])%list (co_res (e_cb E c l' T a)).

Lemma calls_trans l1 l2 l3 r : calls l1 l2 CTrue -> calls l2 l3 r -> calls l1 l3 r.
Proof. intros H. induction 1; auto. constructor; auto. Qed.

(** The error a callback's answer stands for; [no]: the text if it returned false. *)
Definition cb_error (no : string) (r : cbres) (e : exn) : Prop :=
  match r with
  | CTrue => False
  | CFalse => e = XStd no
  | CThrow m => e = XStd m
  | CThrowOther => e = XOther
  end.

(** The text for a last callback of history [l] that returned false. *)
Definition refusal (l : list event) : string :=
  match rev l with
  | Ev _ (OElem _ _) :: _ => "Element callback returned false"
  | _ => "Callback returned false"
  end.

Definition okc (l : list event) (r : res) : Prop :=
  match r with
  | ROk s => calls l (m_log s) CTrue
  | RThrow e s => exists x, calls l (m_log s) x /\ (x = CTrue \/ cb_error (refusal (m_log s)) x e)
  | _ => True
  end.

Lemma okc_bind l r k : okc l r -> (forall s, okc (m_log s) (k s)) -> okc l (bind r k).
Proof.
  intros H Hk. destruct r as [s|e s|u|]; simpl in *; auto.
  specialize (Hk s). destruct (k s) as [s'|e s'|u|]; simpl in *; eauto using calls_trans.
  destruct Hk as (x & K1 & K2). eauto using calls_trans.
Qed.

Lemma okc_ok s s' : m_log s' = m_log s -> okc (m_log s) (ROk s').
Proof. intros H. simpl. rewrite H. constructor. Qed.

Lemma okc_throw s e s' : m_log s' = m_log s -> okc (m_log s) (RThrow e s').
Proof. intros H. simpl. exists CTrue. rewrite H. split; auto. constructor. Qed.

Lemma okc_at s pi k : (forall p, okc (m_log s) (k p)) -> okc (m_log s) (at_node s pi k).
Proof. intros H. unfold at_node. destruct (get pi (m_root s)); simpl; auto. Qed.

Lemma okc_deref l d r : okc l r -> okc l (deref g d r).
Proof. intros H. unfold deref. destruct d; simpl; auto. destruct (Nat.eqb n g); simpl; auto. Qed.

Lemma okc_run_cb c a eff msg s :
  (forall o s', m_log (eff o s') = m_log s') -> msg = refusal [Ev 0 (obs_of a)] ->
  okc (m_log s) (run_cb E c a eff msg s).
Proof.
  intros He Hm. unfold run_cb. destruct c as [c|]; [|apply okc_ok; auto].
  set (o := e_cb E c (m_log s) (m_root s) a).
  assert (Hc : calls (m_log s) (m_log (away (co_away o) (eff o (add_log s (Ev c (obs_of a)))))) (co_res o)).
  { rewrite away_log, He. simpl. apply calls_next. constructor. }
  destruct (co_res o) eqn:Hr; simpl; rewrite ?Hr in *; eauto.
  - eexists; split; [exact Hc|]. right. cbn [cb_error]. rewrite away_log, He. cbn [add_log m_log]. rewrite Hm.
    unfold refusal. rewrite rev_app_distr. reflexivity.
  - eexists; split; [exact Hc|]. simpl; auto.
  - eexists; split; [exact Hc|]. simpl; auto.
Qed.

Lemma no_eff_log o s : m_log (no_eff o s) = m_log s.
Proof. reflexivity. Qed.
Lemma pops_eff_log pi o s : m_log (pops_eff pi o s) = m_log s.
Proof. unfold pops_eff. destruct (get pi (m_root s)); reflexivity. Qed.
Lemma cust_eff_log pi o s : m_log (cust_eff pi o s) = m_log s.
Proof. unfold cust_eff. destruct (get pi (m_root s)) as [[]|]; reflexivity. Qed.

Hint Resolve no_eff_log pops_eff_log cust_eff_log okc_ok okc_throw : core.

Ltac cb := first [apply okc_run_cb; [intros; auto|auto]
  | match goal with |- okc (m_log ?s) (run_cb _ _ _ _ _ (upd ?s ?pi ?q)) =>
      change (m_log s) with (m_log (upd s pi q)); apply okc_run_cb; [intros; auto|auto] end].

Lemma okc_finish pi s : okc (m_log s) (Model.finish E pi s).
Proof.
  unfold Model.finish. apply okc_at. intros p. destruct p.
  - cb.
  - destruct store; cb.
  - cb.
  - destruct (b_empty b); [auto|]. destruct k.
    + destruct (check_members E ms); [auto|cb].
    + destruct (set_values E ms) as [ms' [e|vs]]; [auto|cb].
    + destruct (check_members E ms); [auto|cb].
  - destruct (b_empty b); [auto|]. destruct store.
    + destruct (uni_set_value E cur ms) as [ms' [e|o]]; [auto|cb].
    + destruct (uni_check cur ms); [auto|cb].
  - auto.
Qed.

Section Step.
Variable rec : call -> mstate -> res.
Hypothesis IH : forall c s, okc (m_log s) (rec c s).

Lemma IH' c s s' : m_log s' = m_log s -> okc (m_log s) (rec c s').
Proof. intros <-. apply IH. Qed.

Lemma okc_pop_if d s : okc (m_log s) (pop_if_disp g rec d s).
Proof. unfold pop_if_disp. destruct d; auto. apply okc_deref. apply IH. Qed.

Lemma okc_on_null pi p s : okc (m_log s) (on_null g rec pi p s).
Proof.
  unfold on_null. change (m_log s) with (m_log (upd s pi (reset p))). apply okc_pop_if.
Qed.

Lemma okc_on_member A pi p (ms : list (mspec * A)) ign nm s :
  okc (m_log s) (on_member E g pi p ms ign nm s).
Proof.
  unfold on_member. destruct (lookup nm ms); [apply okc_deref; auto|].
  destruct ign; [apply okc_deref; auto|auto].
Qed.

Lemma okc_call_body c s : okc (m_log s) (call_body E g rec c s).
Proof.
  destruct c as [|t|pi t|pi|pi]; simpl.
  - unfold body_pop. destruct (m_stack s) as [|q [|q' r]]; auto. apply IH'; auto.
  - unfold body_disp. destruct (m_stack s); auto.
  - unfold body_on. apply okc_at. intros p. destruct p.
    + unfold on_val. destruct t; unfold throw_unexpected; auto using okc_on_null.
      destruct (takes_scalar t0 x); auto. apply IH'; auto.
    + unfold on_arr. destruct t; unfold throw_unexpected; auto.
      * destruct started; auto using okc_on_null.
      * destruct started; auto. apply okc_bind; auto. intros s1. apply okc_at. intros p1.
        apply IH'; auto.
      * destruct started; auto. unfold arr_enter. apply okc_deref. apply IH'; auto.
      * destruct started.
        -- unfold arr_enter. apply okc_deref. apply IH'; auto.
        -- cbn [reset]. apply okc_ok; auto.
      * apply IH'; auto.
    + unfold on_map. destruct t; unfold throw_unexpected; auto using okc_on_null.
      apply okc_deref; auto.
    + unfold on_obj. destruct t; unfold throw_unexpected; auto using okc_on_null, okc_on_member.
    + unfold on_uni. destruct t; unfold throw_unexpected; auto using okc_on_null.
      * destruct (takes_scalar t0 x); auto. apply okc_bind.
        -- match goal with |- okc (m_log s) (on_member _ _ ?pi ?p _ _ _ (upd ?s ?pi ?p)) =>
             change (m_log s) with (m_log (upd s pi p)); apply okc_on_member end.
        -- intros s1. apply okc_at. intros p1. destruct p1; auto. destruct (lookup x ms); auto.
      * destruct (String.eqb tm ""); auto.
      * destruct (String.eqb tm ""); auto. destruct (String.eqb k tm); auto.
    + unfold on_ign. destruct t; unfold throw_unexpected; auto using okc_on_null.
      * destruct (ig_st i); auto.
      * destruct (ig_st i) as [|[] r]; auto.
      * destruct (ig_st i) as [|[] r]; auto. destruct r; auto. apply IH'; auto.
      * destruct (ig_st i) as [|[] r]; auto. destruct r; auto. apply IH'; auto.
  - unfold body_end. apply okc_at. intros p. apply okc_bind.
    + match goal with |- okc (m_log s) (Model.finish E ?pi (upd ?s ?pi ?q)) =>
        change (m_log s) with (m_log (upd s pi q)); apply okc_finish end.
    + intros s2. apply okc_at. intros p2. apply okc_pop_if.
  - unfold body_child. apply okc_at. intros p. destruct p; auto.
    + destruct store; auto. destruct (pop_value p) as [[v e']|]; auto. destruct (e_store E v); auto.
    + apply okc_bind; [cb|]. intros s1. destruct store; auto. apply okc_at. intros p1.
      destruct p1; auto. destruct (pop_value p1) as [[v e']|]; auto. destruct (e_store E v); auto.
    + apply okc_bind; auto. intros s1. destruct (String.eqb tm ""); auto.
      apply okc_at. intros p1. apply okc_deref. auto.
Qed.
End Step.
End Calls.

Lemma calls_env E E' l l' r : e_cb E' = e_cb E -> calls E' l l' r -> calls E l l' r.
Proof. intros He. induction 1; [constructor|]. rewrite He. constructor. auto. Qed.

Lemma okc_env E E' l r : e_cb E' = e_cb E -> okc E' l r -> okc E l r.
Proof.
  intros He. destruct r as [s|e s|u|]; simpl; auto; [apply calls_env; auto|].
  intros (x & H1 & H2). exists x. split; auto. eapply calls_env; eauto.
Qed.

Section All.
Variable E : env.
Variable g : nat.
Notation okc := (okc E).
Notation calls := (calls E).

Lemma okc_exec f : forall c s, okc (m_log s) (exec E g f c s).
Proof.
  induction f as [|f IH]; intros c s; [exact I|]. cbn [exec]. apply body_cases.
  - intros E' He _ _. apply (@okc_env E E' _ _ He). apply okc_call_body. intros c' s'. eapply okc_env; [|apply IH]. auto.
  - intros x s' Hin. apply okc_throw. eapply faults_log; eauto.
Qed.

(** Any token sequence, from any state. *)
Theorem run_calls ts : forall s, okc (m_log s) (run E g ts s).
Proof.
  induction ts as [|t ts IH]; intros s; simpl; [apply okc_ok; auto|].
  apply okc_bind; auto. apply okc_exec.
Qed.

Variable tk : tokenizer.
Variable yerr : list ascii -> string.
Notation api := (api tk).

(** A call of parse() or finish(). *)
Theorem op_calls (o : op) (a : api) :
  match do_op E g yerr o a with
  | AOk a' => calls (m_log (a_m a)) (m_log (a_m a')) CTrue
  | AThrow x a' =>
      exists r, calls (m_log (a_m a)) (m_log (a_m a')) r /\
                (r = CTrue \/ exists e, cb_error (refusal (m_log (a_m a'))) r e /\ pe_sj x = caught e)
  | _ => True
  end.
Proof.
  assert (Ha : forall ts (q : api) (x : option (tk_st tk)), m_log (a_m q) = m_log (a_m a) ->
     match run E g ts (a_m q) with
     | ROk m => calls (m_log (a_m a)) (m_log m) CTrue
     | RThrow e m => exists r, calls (m_log (a_m a)) (m_log m) r /\
                (r = CTrue \/ exists e', cb_error (refusal (m_log m)) r e' /\ caught e = caught e')
     | _ => True
     end).
  { intros ts q x Hq. pose proof (run_calls ts (a_m q)) as H. rewrite Hq in H.
    destruct (run E g ts (a_m q)); simpl in *; auto.
    destruct H as (r & H1 & H2). exists r. split; auto. destruct H2; eauto. }
  destruct o as [M b|M]; cbn [do_op].
  - unfold parse. destruct (M b) as [bs|] eqn:Hb; auto.
    set (a1 := mkApi (a_m a) (a_h a) (Some (b, List.length bs)) (a_reset a) (a_err a)).
    assert (Hq : m_log (a_m (do_reset a1)) = m_log (a_m a)).
    { unfold do_reset. destruct (a_reset a1); reflexivity. }
    destruct (a_h (do_reset a1)) as [st|] eqn:Hh.
    + rewrite (feed_run E g bs _ Hh). specialize (Ha (fst (tokens tk bs st)) (do_reset a1) (snd (tokens tk bs st)) Hq).
      unfold after. destruct (run E g (fst (tokens tk bs st)) (a_m (do_reset a1))) as [m|e m|u|]; cbn [lift_y]; auto.
      * destruct (snd (tokens tk bs st)); cbn [lift_y]; auto.
        match goal with |- match throw_parsing_error _ _ ?q with _ => _ end =>
          destruct (throw_parsing_error yerr M q) as [z|z y| |z|] eqn:Ht; auto end.
        -- exfalso. eapply throw_not_ok; eauto.
        -- apply throw_m in Ht. destruct Ht as [-> _]. exists CTrue. auto.
      * match goal with |- match throw_parsing_error _ _ ?q with _ => _ end =>
          destruct (throw_parsing_error yerr M q) as [z|z y| |z|] eqn:Ht; auto end.
        -- exfalso. eapply throw_not_ok; eauto.
        -- apply throw_m in Ht. destruct Ht as [-> Hz]. destruct Ha as (r & H1 & H2).
           exists r. split; auto. destruct H2 as [|(e' & H2 & H3)]; auto. right. exists e'. split; auto.
           rewrite Hz. simpl. auto.
    + assert (Hf : feed E g bs (do_reset a1) = YErr (do_reset a1)).
      { destruct bs; simpl; rewrite Hh; auto. }
      rewrite Hf. cbn [lift_y].
      match goal with |- match throw_parsing_error _ _ ?q with _ => _ end =>
          destruct (throw_parsing_error yerr M q) as [z|z y| |z|] eqn:Ht; auto end.
      * exfalso. eapply throw_not_ok; eauto.
      * apply throw_m in Ht. destruct Ht as [-> _]. exists CTrue. split; auto.
        cbn [a_m with_reset]. rewrite Hq. constructor.
  - unfold Api.finish. destruct (a_h a) as [st|] eqn:Hh.
    + rewrite (@complete_run tk E g (with_reset a true) st) by auto. cbn [a_m with_reset].
      specialize (Ha (fst (tk_fin tk st)) a (snd (tk_fin tk st)) eq_refl).
      unfold after. destruct (run E g (fst (tk_fin tk st)) (a_m a)) as [m|e m|u|]; cbn [lift_y]; auto.
      * destruct (snd (tk_fin tk st)); cbn [lift_y].
        -- cbn [a_m with_h with_m]. destruct (empty_stack m); simpl; eauto.
        -- match goal with |- match throw_parsing_error _ _ ?q with _ => _ end =>
             destruct (throw_parsing_error yerr M q) as [z|z y| |z|] eqn:Ht; auto end.
           ++ exfalso. eapply throw_not_ok; eauto.
           ++ apply throw_m in Ht. destruct Ht as [-> _]. exists CTrue. auto.
      * match goal with |- match throw_parsing_error _ _ ?q with _ => _ end =>
          destruct (throw_parsing_error yerr M q) as [z|z y| |z|] eqn:Ht; auto end.
        -- exfalso. eapply throw_not_ok; eauto.
        -- apply throw_m in Ht. destruct Ht as [-> Hz]. destruct Ha as (r & H1 & H2).
           exists r. split; auto. destruct H2 as [|(e' & H2 & H3)]; auto. right. exists e'. split; auto.
           rewrite Hz. simpl. auto.
    + unfold complete. cbn [a_h with_reset]. rewrite Hh. cbn [lift_y].
      match goal with |- match throw_parsing_error _ _ ?q with _ => _ end =>
          destruct (throw_parsing_error yerr M q) as [z|z y| |z|] eqn:Ht; auto end.
      * exfalso. eapply throw_not_ok; eauto.
      * apply throw_m in Ht. destruct Ht as [-> _]. exists CTrue. split; auto. constructor.
Qed.
End All.
