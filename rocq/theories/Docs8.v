(** Property theorems, part 8 (C21 and C33 for declarations with arrays), with their
    proofs. *)

From Verif Require Import Spec Model Infra Total Safe Refine Main Api ApiProofs Arrays History ApiFacts
  Outcome Docs3 Json.
Local Open Scope string_scope.
Set Implicit Arguments.

Lemma document_at_start (tk : tokenizer) E g yerr M b bufs bs (a a' : api tk) :
  at_start a -> content M (b :: bufs) = Some bs ->
  (document E g yerr M (b :: bufs) a = AOk a' \/ exists x, document E g yerr M (b :: bufs) a = AThrow x a') ->
  at_start a'.
Proof.
  intros Ha Hc Hd. pose proof (document_observe E g yerr M b bufs Ha Hc) as Hob. unfold doc_obs in Hob.
  left. destruct (tokenize tk bs) as [ts x].
  destruct (run E g ts _) as [m2|e m2|u|].
  - destruct Hd as [Hd|[y Hd]]; rewrite Hd in Hob; cbn [observe] in Hob;
      (destruct x as [st|]; [destruct (empty_stack m2)|]); try discriminate;
      injection Hob as E1 E2 E3 E4; auto.
  - destruct Hd as [Hd|[y Hd]]; rewrite Hd in Hob; cbn [observe] in Hob; try discriminate.
    injection Hob as E1 E2 E3 E4; auto.
  - destruct Hd as [Hd|[y Hd]]; rewrite Hd in Hob; discriminate.
  - destruct Hd as [Hd|[y Hd]]; rewrite Hd in Hob; discriminate.
Qed.

(** With arrays: after a history, any text and any callbacks, whether the document
    is accepted or rejected, as long as all arrays were closed at that point, the next
    document has the outcome it has for a new object. *)
Lemma c21_after_closed_arrays : forall (tk : tokenizer) E g yerr P s (a a' : api tk) M b bufs bs M' b' bufs' bs' j st,
  closable s = true -> history g yerr s a -> at_start a ->
  content M (b :: bufs) = Some bs -> in_order (fst (tokenize tk bs)) ->
  all_closed E g (fst (tokenize tk bs)) (dispatcher_reset (a_m a)) ->
  (document E g yerr M (b :: bufs) a = AOk a' \/ exists x, document E g yerr M (b :: bufs) a = AThrow x a') ->
  content M' (b' :: bufs') = Some bs' -> tokenize tk bs' = (toks j, Some st) -> supported j s = true ->
  doc g yerr P M' b' bufs' a' = doc g yerr P M' b' bufs' (start tk g (mk s) (past a')).
Proof.
  intros tk E g yerr P s a a' M b bufs bs M' b' bufs' bs' j st Hcl Hh Ha Hc Ho Hx Hd Hc' Ht Hs.
  apply c21_like_new with (s := s) (j := j); auto. split.
  { exact (@h_closed tk g yerr s a E M b bufs bs a' Hcl Hh Ha Hc Ho Hx Hd). }
  split; [exact (@document_at_start tk E g yerr M b bufs bs a a' Ha Hc Hd)|]. exists bs', st. auto.
Qed.

(** *** JSON text *)
Definition sofar (st : jst) : bool := match j_exp st with EValOrEnd | ESep => false | _ => true end.
Definition lex_val (l : lex) : Prop := match l with LWord _ t => t <> TArrEnd /\ is_key t = false | _ => True end.

Lemma order_weak b ts : order_from true ts -> order_from b ts.
Proof. destruct ts as [|t ts]; simpl; auto. destruct b; auto. intros [_ H]. auto. Qed.

Lemma order_weak' b b' ts : (b = true -> b' = true) -> order_from b' ts -> order_from b ts.
Proof. destruct b'; intros H K; [apply order_weak; auto|]. destruct b; auto. specialize (H eq_refl). discriminate. Qed.

Definition step_ok (bad : bool) (r : list token * option jst) : Prop :=
  match r with
  | (ts, None) => order_from bad ts
  | (ts, Some st) => lex_val (j_lex st) /\ forall rest, order_from (sofar st) rest -> order_from bad (ts ++ rest)%list
  end.

Lemma step_fail bad : step_ok bad fail. Proof. exact I. Qed.
Lemma step_go bad st : lex_val (j_lex st) -> (bad = true -> sofar st = true) -> step_ok bad (go st).
Proof. intros H1 H2. split; auto. intros rest Hr. eapply order_weak'; eauto. Qed.
Lemma step_emit bad t st : lex_val (j_lex st) -> (t = TArrEnd -> bad = false) -> (is_key t = true -> sofar st = true) ->
  step_ok bad (emit t st).
Proof. intros H1 H2 H3. split; auto. intros rest Hr. simpl. split; auto. eapply order_weak'; eauto. Qed.

Lemma plain_ok c e b : step_ok (sofar (J c e LNone)) (plain c e b).
Proof.
  unfold plain. destruct (cls_of b); destruct e; try apply step_fail; unfold sofar; cbn [j_exp];
    try (apply step_go; [exact I|auto]); try (apply step_emit; [exact I|discriminate|discriminate]);
    try (split; [simpl; auto; split; [discriminate|reflexivity]|]; intros rest Hr; exact Hr);
    try (destruct c as [|[|] r]; try apply step_fail;
         first [apply step_go; [exact I|discriminate] | apply step_emit; [exact I|first [discriminate|auto]|discriminate]]).
  all: destruct (d =? 0)%N; (apply step_go; [exact I|auto]).
Qed.

Lemma byte_ok st b : lex_val (j_lex st) -> step_ok (sofar st) (j_byte st b).
Proof.
  destruct st as [c e l]. cbn [j_lex]. intros Hl.
  assert (Hgo : forall l', lex_val l' -> step_ok (sofar (J c e l)) (go (J c e l'))).
  { intros l' H. apply step_go; auto. }
  assert (Hev : forall t, t <> TArrEnd -> is_key t = false -> step_ok (sofar (J c e l)) (emit t (ended c))).
  { intros t H1 H2. apply step_emit; [exact I|congruence|congruence]. }
  assert (Hnum : forall x, step_ok (sofar (J c e l)) (andplain (num_end x) c b)).
  { intros x. unfold andplain. destruct (num_end x) as [t|] eqn:Ht; [|apply step_fail].
    assert (Hk : t <> TArrEnd /\ is_key t = false) by (destruct (@num_tok _ _ Ht) as [->|[y ->]]; split; auto; discriminate).
    destruct Hk as [Hk1 Hk2].
    pose proof (plain_ok c (j_exp (ended c)) b) as K. destruct (plain c (j_exp (ended c)) b) as [ts [st|]].
    - destruct K as [K1 K2]. split; auto. intros rest Hr. cbn [app order_from]. split; [tauto|].
      eapply order_weak'; [|apply K2; auto]. rewrite Hk2. discriminate.
    - cbn [step_ok order_from] in *. split; [tauto|]. eapply order_weak'; [|exact K]. rewrite Hk2. discriminate. }
  destruct l; cbn [j_byte]; auto.
  - apply plain_ok.
  - destruct rest as [|w ws]; [apply step_fail|]. destruct (Ascii.eqb b w); [|apply step_fail].
    destruct Hl as [H1 H2]. destruct ws; [apply Hev; auto|apply Hgo; simpl; auto].
  - destruct (num_step x b); [apply Hgo; exact I|auto].
  - destruct (closes x b).
    + unfold end_str. destruct key; [apply step_emit; [exact I|discriminate|reflexivity]|apply Hev; [discriminate|reflexivity]].
    + destruct (str_step acc x b) as [[acc' x']|]; [apply Hgo; exact I|apply step_fail].
Qed.

Lemma tokens_ok bs : forall st, lex_val (j_lex st) -> step_ok (sofar st) (tokens json_tk bs st).
Proof.
  induction bs as [|b bs IH]; intros st Hl.
  - apply step_go; auto.
  - rewrite tokens_cons. pose proof (byte_ok st b Hl) as K. destruct (j_byte st b) as [ts [st1|]]; auto.
    destruct K as [K1 K2]. specialize (IH st1 K1). unfold more. destruct (tokens json_tk bs st1) as [ts' [st2|]]; cbn [fst snd].
    + destruct IH as [L1 L2]. split; auto. intros rest Hr. rewrite <- app_assoc. auto.
    + apply K2. exact IH.
Qed.

(** Whatever the text. *)
Lemma json_in_order bs : in_order (fst (tokenize json_tk bs)).
Proof.
  assert (K : order_from true (fst (tokenize json_tk bs))).
  { unfold tokenize. pose proof (@tokens_ok bs (tk_init json_tk) I) as K. change (sofar (tk_init json_tk)) with true in K.
    destruct (tokens json_tk bs (tk_init json_tk)) as [ts [[c e l]|]]; auto. destruct K as [_ K].
    change (tk_fin json_tk) with j_fin.
    assert (H : exists t2, fst (j_fin (J c e l)) = t2 /\ (t2 = [] \/ exists t, t2 = [t] /\ t <> TArrEnd)).
    { unfold j_fin. destruct l; simpl; eauto.
      - destruct c, e; simpl; eauto.
      - destruct (num_end x) as [t|] eqn:Ht; simpl; eauto.
        assert (Hk : t <> TArrEnd) by (destruct (@num_tok _ _ Ht) as [->|[y ->]]; discriminate).
        destruct c; simpl; eauto 8. }
    destruct H as (t2 & H1 & H2). destruct (j_fin (J c e l)) as [t2' x]. simpl in *. subst t2'.
    apply K. destruct H2 as [->|(z & -> & Hz)]; simpl; auto. split; auto. tauto. }
  intros before after He. rewrite He in K. apply order_in in K. destruct K as [K1 K2]. split; auto.
  intros Hx. specialize (K1 Hx). discriminate.
Qed.

(** The same with JSON text: whatever the text. *)
Lemma c21_after_closed_arrays_json : forall E g yerr P s (a a' : api json_tk) M b bufs bs M' b' bufs' j,
  closable s = true -> history g yerr s a -> at_start a ->
  content M (b :: bufs) = Some bs ->
  all_closed E g (fst (tokenize json_tk bs)) (dispatcher_reset (a_m a)) ->
  (document E g yerr M (b :: bufs) a = AOk a' \/ exists x, document E g yerr M (b :: bufs) a = AThrow x a') ->
  content M' (b' :: bufs') = Some (print j) -> printable j = true -> supported j s = true ->
  doc g yerr P M' b' bufs' a' = doc g yerr P M' b' bufs' (start json_tk g (mk s) (past a')).
Proof.
  intros E g yerr P s a a' M b bufs bs M' b' bufs' j Hcl Hh Ha Hc Hx Hd Hc' Hp Hs.
  exact (@c21_after_closed_arrays json_tk E g yerr P s a a' M b bufs bs M' b' bufs' _ j _ Hcl Hh Ha Hc (json_in_order bs)
           Hx Hd Hc' (json_round_trip j Hp) Hs).
Qed.

(** ** C33 *)

(** With arrays: a parser object after any history with another Parser, given to a
    new Parser: supported documents have the outcome they have for a new object. *)
Lemma c33_arrays_reattached : forall (tk : tokenizer) g0 g yerr P s (a : api tk) l M b bufs bs j st,
  history g0 yerr s a ->
  content M (b :: bufs) = Some bs -> tokenize tk bs = (toks j, Some st) -> supported j s = true ->
  doc g yerr P M b bufs (start tk g (m_root (a_m a)) l) = doc g yerr P M b bufs (start tk g (mk s) l).
Proof.
  intros tk g0 g yerr P s a l M b bufs bs j st Hh Hb Ht Hs.
  assert (Hr : reads g yerr s (start tk g (m_root (a_m a)) l) M b bufs j).
  { split; [eapply h_again; eauto|]. split; [apply at_start_new|eauto]. }
  rewrite (c21_like_new P Hr Hs). reflexivity.
Qed.
