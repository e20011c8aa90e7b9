(** Property theorems, part 9 (C38), with their proofs. *)

From Verif Require Import Spec Model Infra Total Safe Refine Main Api ApiProofs History ApiFacts Closed Accept
  Access Findings Callbacks Typed Recall Unset Outcome.
Local Open Scope string_scope.
Set Implicit Arguments.

(** ** C38 *)

(** [used s l a]: [a] is a Parser over a parser object declared as [s], after any use:
    any parse() and finish() calls with any texts and any callbacks, failing or not,
    pop() on any parser of the declaration, new Parsers over the same object, and
    setFinishCallback() and setElementCallback() on any parser of the declaration ([s]
    is the declaration with the callbacks as they are now).  [l]: the callback
    invocations before the object was constructed or a callback was last replaced. *)
Inductive used (tk : tokenizer) (yerr : list ascii -> string)
  : schema -> list event -> nat -> api tk -> Prop :=
| u_new s l g : used yerr s l g (start tk g (mk s) l)
| u_call s l g a E o a' : used yerr s l g a ->
    (do_op E g yerr o a = AOk a' \/ exists x, do_op E g yerr o a = AThrow x a') ->
    used yerr s l g a'
| u_pop s l g a rel : used yerr s l g a -> used yerr s l g (user_pop rel a)
| u_again s l g a g' : used yerr s l g a -> used yerr s l g' (start tk g' (m_root (a_m a)) (past a))
| u_callback s l g a w pi c : used yerr s l g a ->
    used yerr (declare_at w pi c s) (past a) g (user_set_callback w pi c a).

Lemma used_sound tk yerr s l g (a : api tk) : compiles s -> used yerr s l g a -> sound s l (a_m a).
Proof.
  intros Hc Hu. revert Hc. induction Hu as [s l g|s l g a E o a' _ IH Ho|s l g a rel _ IH|s l g a g' _ IH|s l g a w pi c _ IH]; intros Hc.
  - split; [|exists []; split; [rewrite app_nil_r; reflexivity|constructor]].
    simpl. apply refit_set_disp, fit_mk; auto.
  - specialize (IH Hc). pose proof (@keep_op tk g yerr E (sound s l)) as K.
    assert (K1 : forall m, sound s l m -> sound s l (dispatcher_reset m)) by (intros m H; apply sound_stack; exact H).
    assert (K2 : forall ts m, sound s l m -> match run E g ts m with ROk m' | RThrow _ m' => sound s l m' | _ => True end)
      by (intros ts m H; exact (@okt_run E g s l ts m H)).
    specialize (K K1 K2 o a IH). destruct Ho as [Ho|[x Ho]]; rewrite Ho in K; exact K.
  - destruct (IH Hc) as [IH1 IH2]. split; [|exact IH2]. apply refit_unset_at; auto.
  - destruct (IH Hc) as [IH1 IH2]. split; [|exact IH2]. simpl. apply refit_set_disp; auto.
  - assert (Hs : compiles s).
    { apply (compiles_uncb Hc). symmetry. apply uncb_declare. }
    destruct (IH Hs) as [IH1 IH2]. split; [|exists []; split; [rewrite app_nil_r; reflexivity|constructor]].
    rewrite <- (fit_schema IH1), <- schema_set_at. simpl. apply (fit_uncb IH1), uncb_set_at.
Qed.

(** After any use, what the API shows of the parser has the shape of its declaration. *)
Lemma c38_shape : forall (tk : tokenizer) yerr s l g (a : api tk),
  compiles s -> used yerr s l g a -> shape s (view_of (m_root (a_m a))).
Proof. intros tk yerr s l g a Hc Hu. apply fit_view. exact (proj1 (used_sound Hc Hu)). Qed.

(** The same for every parser inside it ([pi]: the way to it; [SIgn]: the part that
    skips unknown members), and at any moment between two tokens of the next text. *)
Lemma c38_at_any_moment : forall (tk : tokenizer) yerr s l g (a : api tk) E ts m0 m pi p,
  compiles s -> used yerr s l g a -> m0 = a_m a \/ m0 = dispatcher_reset (a_m a) ->
  (run E g ts m0 = ROk m \/ exists e, run E g ts m0 = RThrow e m) ->
  get pi (m_root m) = Some p ->
  exists q, (part q s \/ q = SIgn) /\ shape q (view_of p).
Proof.
  intros tk yerr s l g a E ts m0 m pi p Hc Hu Hm Hr Hg. pose proof (used_sound Hc Hu) as H.
  assert (H0 : sound s l m0) by (destruct Hm; subst; auto; apply sound_stack; auto).
  pose proof (@okt_run E g s l ts m0 H0) as K.
  assert (Hs : sound s l m) by (destruct Hr as [Hr|[e Hr]]; rewrite Hr in K; exact K).
  destruct (fit_get pi (proj1 Hs) Hg) as (q & K1 & K2). exists q. split; [tauto|]. apply fit_view; auto.
Qed.

(** Every callback is told values of the types it is declared with. *)
Lemma c38_callbacks : forall (tk : tokenizer) yerr s l g (a : api tk),
  compiles s -> used yerr s l g a -> exists l', past a = (l ++ l')%list /\ Forall (told s) l'.
Proof. intros tk yerr s l g a Hc Hu. exact (proj2 (used_sound Hc Hu)). Qed.

(** get<n>() of an object or a union: a value of the n-th member's declaration. *)
Lemma c38_member_value : forall (tk : tokenizer) yerr s l g (a : api tk) n v,
  compiles s -> used yerr s l g a -> get_nth n (m_root (a_m a)) = GVal v ->
  exists c, nth_error (member_decls s) n = Some c /\ typed c v.
Proof.
  intros tk yerr s l g a n v Hc Hu. destruct (used_sound Hc Hu) as [H _]. unfold get_nth.
  assert (K : forall m q, member_at n (m_root (a_m a)) = Some (m, q) ->
    exists c, nth_error (member_decls s) n = Some c /\ fit c q /\ forall d, m_def m = Some d -> typed c d).
  { intros m q. destruct H as [| | |b k w ss ms ig ign cb _ Hd Hm|b st w t tm cur ss ms ig cb _ Hd Hm|];
      simpl; try discriminate;
    intros Hn; destruct (fit2_nth _ Hm Hn) as ([m' c] & K1 & K2 & K3); simpl in K2, K3; subst m'; exists c;
    (split; [rewrite nth_error_map, K1; reflexivity|split; auto]);
    intros d Hd1; rewrite Forall_forall in Hd; apply (Hd (m, c)); auto; eapply nth_error_In; eauto. }
  destruct (member_at n (m_root (a_m a))) as [[m q]|]; [|discriminate]. intros H0.
  destruct (K m q eq_refl) as (c & K1 & K2 & K3). exists c. split; auto.
  destruct (stored q); [|discriminate]. destruct (is_set q) eqn:Hset.
  - destruct (get_value q) eqn:Hv; [|discriminate]. injection H0 as <-. exact (proj1 (fit_get_value K2 Hv)).
  - destruct (m_def m) eqn:Hd; [injection H0 as <-; auto|].
    destruct (get_value q) eqn:Hv; [|discriminate]. injection H0 as <-. exact (proj1 (fit_get_value K2 Hv)).
Qed.
