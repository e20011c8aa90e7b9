(** Property theorems, part 20: what error texts say (C48). *)

From Verif Require Import Spec Model Infra Total Safe Api ApiProofs Lock Log Cut Errors.
Local Open Scope string_scope.
Set Implicit Arguments.

(** ** C48 *)

(** The reply [e] to a text [bs], with the parsers left in the state of [a]: *)
Inductive ruling (tk : tokenizer) (E : env) (bs : list ascii) (e : perr) (a : api tk) : Prop :=
(* the text is no JSON; sjparser has nothing to say *)
| v_syntax : snd (tokenize tk bs) = None -> pe_sj e = "" -> ruling E bs e a
(* the text is over, but not all parsers have ended *)
| v_open : snd (tokenize tk bs) <> None -> m_stack (a_m a) <> [] -> pe_sj e = "Dispatcher parsers stack is not empty in the end" -> ruling E bs e a
(* the token [t] of the text is refused, for cause [x] *)
| v_refused ts t rest x : fst (tokenize tk bs) = (ts ++ t :: rest)%list -> cause E t (a_m a) x ->
    pe_sj e = caught x -> ruling E bs e a.

Lemma run_schema E g ts : forall s s', (run E g ts s = ROk s' \/ exists x, run E g ts s = RThrow x s') ->
  schema_of (m_root s') = schema_of (m_root s).
Proof.
  induction ts as [|t ts IH]; intros s s' H; cbn [run] in H.
  - destruct H as [H|[x H]]; [injection H as <-; auto|discriminate].
  - pose proof (exec_le E g (fuel_for s) (CDisp t) s) as Hl. fold (dispatch E g t s) in Hl.
    destruct (dispatch E g t s) as [s1|e s1|u|]; cbn [bind] in H; cbn [lex] in Hl.
    + rewrite (le_schema Hl). apply IH; auto.
    + destruct H as [H|[x H]]; [discriminate|]. injection H as _ <-. symmetry. apply (le_schema Hl).
    + destruct H as [H|[x H]]; discriminate.
    + destruct H as [H|[x H]]; discriminate.
Qed.

(** Every error of every document, in any chunks, has one of these causes; the declaration
    (names, options) to which it refers is unchanged. *)
Lemma c48_cause : forall (tk : tokenizer) E g yerr M b bufs bs (a a' : api tk) e, at_start a ->
  content M (b :: bufs) = Some bs -> document E g yerr M (b :: bufs) a = AThrow e a' ->
  ruling E bs e a' /\ schema_of (m_root (a_m a')) = schema_of (m_root (a_m a)).
Proof.
  intros tk E g yerr M b bufs bs a a' e Ha Hc Hd.
  pose proof (@document_observe tk E g yerr M b bufs bs a Ha Hc) as Ho. rewrite Hd in Ho. cbn [observe] in Ho.
  unfold doc_obs in Ho. destruct (tokenize tk bs) as [ts x] eqn:Ht.
  set (s0 := mkS (m_root (a_m a)) [[]] (m_log (a_m a))) in Ho.
  destruct (run E g ts s0) as [m|y m|u|] eqn:Hr; try discriminate.
  - assert (Hs : a_m a' = m -> schema_of (m_root (a_m a')) = schema_of (m_root (a_m a))).
    { intros ->. apply (@run_schema E g ts s0 m). auto. }
    destruct x as [st|].
    + destruct (empty_stack m) eqn:Hm; [discriminate|]. injection Ho as H1 H2 _ _ _. split; [|auto].
      apply v_open; [rewrite Ht; discriminate| |exact H1]. rewrite H2. intros K. unfold empty_stack in Hm. rewrite K in Hm. discriminate.
    + injection Ho as H1 H2 _ _ _. split; [|auto]. apply v_syntax; [rewrite Ht; reflexivity|exact H1].
  - injection Ho as H1 H2 _ _ _. split.
    + destruct (@run_why E g ts s0 y m Hr) as (ts1 & t & ts2 & s1 & -> & _ & _ & Hcause).
      rewrite <- H2 in Hcause. eapply v_refused; [rewrite Ht; reflexivity|exact Hcause|exact H1].
    + rewrite H2. apply (@run_schema E g ts s0 m). eauto.
Qed.

(** An exception that is not the library's: a callback, the storing of a value or an
    allocation threw it. *)
Definition foreign (E : env) (x : exn) : Prop :=
  (exists c l T a m, e_cb E c l T a = m /\ ((exists w, co_res m = CThrow w /\ x = XStd w) \/ (co_res m = CThrowOther /\ x = XOther))) \/
  (exists v, e_store E v = Some x) \/ fails_with E x.

(** The error of Dispatcher::popParser (internals/dispatcher.cpp:40) is never reported:
    a parser that ends is on the stack. *)
Lemma c48_never_pops_empty : forall (tk : tokenizer) E g yerr M b bufs bs (a a' : api tk) e, at_start a ->
  content M (b :: bufs) = Some bs -> document E g yerr M (b :: bufs) a = AThrow e a' ->
  pe_sj e = "Can not pop parser, parsers stack is empty" ->
  exists x, foreign E x /\ caught x = "Can not pop parser, parsers stack is empty".
Proof.
  intros tk E g yerr M b bufs bs a a' e Ha Hc Hd He.
  destruct (@c48_cause tk E g yerr M b bufs bs a a' e Ha Hc Hd) as [Hv _].
  destruct Hv as [_ H|_ _ H|ts t rest x _ Hx H]; try congruence. rewrite He in H.
  destruct Hx; try (destruct u as [|[]| | | | |]; discriminate H); try discriminate H.
  - match goal with K : objection _ _ _ |- _ => rename K into Hob; remember (co_res (e_cb E c l T a0)) as r eqn:Hr; destruct Hob end.
    + destruct a0; discriminate H.
    + exists (XStd m). split; [|auto]. left. exists c, l, T, a0, (e_cb E c l T a0). split; [reflexivity|]. left. eauto.
    + exists XOther. split; [|auto]. left. exists c, l, T, a0, (e_cb E c l T a0). split; [reflexivity|]. right. auto.
  - exists x. split; [|auto]. right. left. eauto.
  - exists x. split; [|auto]. right. right. auto.
Qed.
