(** The tokens the JSON tokenizer reports, of accepted and of rejected text, have a value
    first and after every key. *)

From Verif Require Import Spec Model Infra Total Safe Refine Main Api ApiProofs History ApiFacts Outcome Unset MoveState Json Same Lock LockApi.
Local Open Scope string_scope.
Set Implicit Arguments.

Lemma after_key_app a : forall f b, after_key f (a ++ b) = after_key (after_key f a) b.
Proof. induction a; simpl; auto. Qed.

(** [f]: the last token was a key, or there was none. *)
Definition pl (f : bool) (st : jst) : Prop :=
  lex_ok (j_exp st) (j_lex st) /\ (f = true -> j_exp st = EVal \/ j_exp st = EColon).

Definition pl_next (f : bool) (r : list token * option jst) : Prop :=
  values_lead f (fst r) /\ match snd r with Some st => pl (after_key f (fst r)) st | None => True end.

Lemma pl_ended c : pl false (ended c).
Proof. unfold pl, ended. simpl. split; auto. intros K; discriminate K. Qed.

Lemma pl_fail f : pl_next f fail.
Proof. split; simpl; auto. Qed.

Lemma pl_go f st : pl f st -> pl_next f (go st).
Proof. split; simpl; auto. Qed.

Lemma pl_emit f t st : (f = true -> begins t = true) -> pl (is_key t) st -> pl_next f (emit t st).
Proof. intros H1 H2. split; simpl; auto. Qed.

Lemma pl_plain f c e b : (f = true -> e = EVal \/ e = EColon) -> pl_next f (plain c e b).
Proof.
  intros Hf.
  assert (Hk : e <> EVal -> e <> EColon -> f = false).
  { intros K1 K2. destruct f; auto. destruct (Hf eq_refl); contradiction. }
  unfold plain. destruct (cls_of b); try apply pl_fail.
  - apply pl_go. split; simpl; auto.
  - destruct e; try apply pl_fail; apply pl_emit; try reflexivity; split; simpl; auto; intros K; discriminate K.
  - destruct c as [|[|] r]; try apply pl_fail; destruct e; try apply pl_fail;
      (rewrite Hk by discriminate); apply pl_emit; try (intros K; discriminate K); apply pl_ended.
  - destruct e; try apply pl_fail; apply pl_emit; try reflexivity; split; simpl; auto; intros K; discriminate K.
  - destruct c as [|[|] r]; try apply pl_fail; destruct e; try apply pl_fail;
      (rewrite Hk by discriminate); apply pl_emit; try (intros K; discriminate K); apply pl_ended.
  - destruct c as [|[|] r]; try apply pl_fail; destruct e; try apply pl_fail;
      (rewrite Hk by discriminate); apply pl_go; split; simpl; auto; intros K; discriminate K.
  - destruct e; try apply pl_fail. apply pl_go. split; simpl; auto.
  - destruct e; try apply pl_fail; apply pl_go; split; simpl; auto; unfold vexp, kexp; auto.
  - destruct e; try apply pl_fail; apply pl_go; split; simpl; auto; unfold vexp, kexp; auto.
  - destruct e; try apply pl_fail; apply pl_go; split; simpl; auto; unfold vexp, kexp; auto.
  - destruct e; try apply pl_fail; apply pl_go; split; simpl; auto; unfold vexp, kexp; auto.
  - destruct e; try apply pl_fail; apply pl_go; split; simpl; unfold vexp, kexp; eauto.
  - destruct e; try apply pl_fail; apply pl_go; split; simpl; unfold vexp, kexp; eauto.
Qed.

Lemma scalar_begins t : t = TNull \/ (exists x, t = TSc x) -> begins t = true /\ is_key t = false.
Proof. intros [->|[x ->]]; auto. Qed.

Lemma pl_byte f st b : pl f st -> pl_next f (j_byte st b).
Proof.
  destruct st as [c e l]. unfold pl. cbn [j_exp j_lex]. intros [Hl Hf]. unfold j_byte. destruct l as [|[|w ws] t|x|key acc x].
  - apply pl_plain; auto.
  - apply pl_fail.
  - destruct Hl as [Hv Ht]. destruct (Ascii.eqb b w); [|apply pl_fail]. destruct ws as [|w' ws].
    + destruct (scalar_begins Ht) as [B1 B2]. apply pl_emit; auto. rewrite B2. apply pl_ended.
    + apply pl_go. split; simpl; auto.
  - destruct (num_step x b) as [x'|]; [apply pl_go; split; simpl; auto|]. destruct (num_end x) as [t|] eqn:Ht; [|apply pl_fail].
    destruct (scalar_begins (num_tok _ Ht)) as [B1 B2]. unfold andplain.
    assert (H : pl_next false (plain c (j_exp (ended c)) b)) by (apply pl_plain; intros K; discriminate K).
    destruct (plain c (j_exp (ended c)) b) as [ts r]. destruct H as [H1 H2]. split; cbn [fst snd values_lead after_key] in *; rewrite B2; auto.
  - destruct (closes x b).
    + unfold end_str. destruct key; apply pl_emit; try reflexivity.
      * intros K. destruct Hl as [->| ->], (Hf K); discriminate.
      * split; simpl; auto.
      * apply pl_ended.
    + destruct (str_step acc x b) as [[acc' x']|]; [apply pl_go; split; simpl; auto|apply pl_fail].
Qed.

Lemma pl_fin f st : pl f st -> values_lead f (fst (j_fin st)).
Proof.
  destruct st as [c e l]. unfold pl. cbn [j_exp j_lex]. intros [Hl Hf]. unfold j_fin. destruct l as [|w t|x|key acc x]; try exact I.
  - destruct c, e; exact I.
  - destruct (num_end x) as [t|] eqn:Ht; [|exact I]. destruct (scalar_begins (num_tok _ Ht)) as [B1 B2].
    destruct c; split; simpl; auto.
Qed.

Lemma pl_tokens bs : forall f st, pl f st -> pl_next f (tokens json_tk bs st).
Proof.
  induction bs as [|b r IH]; intros f st H.
  - cbn [tokens]. apply pl_go. auto.
  - rewrite tokens_cons. pose proof (pl_byte b H) as [H1 H2]. destruct (j_byte st b) as [ts [st'|]]; [|split; auto].
    cbn [fst snd] in *. specialize (IH _ _ H2). destruct (tokens json_tk r st') as [ts' x]. destruct IH as [I1 I2].
    unfold more. split; cbn [fst snd] in *.
    + apply values_lead_app. auto.
    + destruct x as [st2|]; auto. rewrite after_key_app. auto.
Qed.

(** Whatever the bytes. *)
Theorem json_placed bs : values_lead true (fst (tokenize json_tk bs)).
Proof.
  unfold tokenize. assert (H : pl true (J [] EVal LNone)) by (split; simpl; auto).
  pose proof (pl_tokens bs H) as [H1 H2]. change (tk_init json_tk) with (J [] EVal LNone).
  destruct (tokens json_tk bs (J [] EVal LNone)) as [ts [st|]]; cbn [fst snd] in *; auto.
  pose proof (pl_fin H2) as H3. change (tk_fin json_tk st) with (j_fin st). destruct (j_fin st) as [ts' y]. cbn [fst] in *.
  apply values_lead_app. auto.
Qed.
