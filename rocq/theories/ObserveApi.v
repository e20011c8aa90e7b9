(** Onlookers (Observe.v) at the level of parse() and finish(). *)

From Verif Require Import Spec Model Infra Total Safe Refine Main Callbacks Observe Api ApiProofs.
Local Open Scope string_scope.
Set Implicit Arguments.

Section Quiet.
Variable X : cbid -> bool.
Variable tk : tokenizer.
Variable E : env.
Variable g : nat.
Variable yerr : list ascii -> string.
Hypothesis HE : onlookers X E.
Notation api := (api tk).

Definition quiet (a : api) : api := with_m a (plain X (a_m a)).

Definition yquiet (y : yres tk) : yres tk :=
  match y with YOk a => YOk (quiet a) | YErr a => YErr (quiet a) | y => y end.

Definition aquiet (r : ares tk) : ares tk :=
  match r with AOk a => AOk (quiet a) | AThrow x a => AThrow x (quiet a) | r => r end.

Lemma quiet_token t a : yquiet (on_token E g t a) = on_token E g t (quiet a).
Proof.
  unfold on_token. simpl. rewrite <- (erase_dispatch g HE). destruct (dispatch E g t (a_m a)) as [m|e m|u|]; simpl; auto.
  destruct e; auto.
Qed.

Lemma quiet_deliver ts : forall a, yquiet (deliver E g ts a) = deliver E g ts (quiet a).
Proof.
  induction ts as [|t ts IH]; intros a; simpl; auto. rewrite <- quiet_token.
  destruct (on_token E g t a); simpl; auto.
Qed.

Lemma quiet_react x a : yquiet (react E g x a) = react E g x (quiet a).
Proof.
  unfold react. rewrite <- quiet_deliver. destruct (deliver E g (fst x) a); simpl; auto.
  destruct (snd x); auto.
Qed.

Lemma quiet_feed bs : forall a, yquiet (feed E g bs a) = feed E g bs (quiet a).
Proof.
  induction bs as [|b bs IH]; intros a; simpl.
  - destruct (a_h a); auto.
  - destruct (a_h a); auto. rewrite <- quiet_react. destruct (react E g (tk_byte tk st b) a); simpl; auto.
Qed.

Lemma quiet_complete a : yquiet (complete E g a) = complete E g (quiet a).
Proof. unfold complete. simpl. destruct (a_h a); auto. apply quiet_react. Qed.

Lemma quiet_throw M a : aquiet (throw_parsing_error yerr M a) = throw_parsing_error yerr M (quiet a).
Proof.
  unfold throw_parsing_error. simpl. destruct (a_data a) as [[b [|n]]|]; auto.
  destruct (M b); auto. destruct (Nat.leb _ _); auto.
Qed.

Lemma quiet_parse M b a : aquiet (parse E g yerr M b a) = parse E g yerr M b (quiet a).
Proof.
  unfold parse. destruct (M b) as [bytes|]; auto. set (a1 := mkApi (a_m a) _ _ _ _).
  assert (K : quiet (do_reset a1) = do_reset (mkApi (a_m (quiet a)) (a_h (quiet a)) (Some (b, List.length bytes)) (a_reset (quiet a)) (a_err (quiet a)))).
  { unfold do_reset. simpl. destruct (a_reset a); reflexivity. }
  rewrite <- K, <- quiet_feed. destruct (feed E g bytes (do_reset a1)); cbn [lift_y yquiet]; auto.
  rewrite quiet_throw. reflexivity.
Qed.

Lemma quiet_finish M a : aquiet (Api.finish E g yerr M a) = Api.finish E g yerr M (quiet a).
Proof.
  unfold Api.finish. change (with_reset (quiet a) true) with (quiet (with_reset a true)). rewrite <- quiet_complete.
  destruct (complete E g (with_reset a true)) as [q|q| |u|]; cbn [lift_y yquiet]; auto.
  - unfold empty_stack. simpl. destruct (m_stack (a_m q)); auto.
  - apply quiet_throw.
Qed.

Lemma quiet_op o a : aquiet (do_op E g yerr o a) = do_op E g yerr o (quiet a).
Proof. destruct o; simpl; [apply quiet_parse|apply quiet_finish]. Qed.
End Quiet.
