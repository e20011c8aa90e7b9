(** Property theorems, part 27: the layout of a text does not matter (C54). *)

From Verif Require Import Spec Model Infra Total Safe Refine Main Api ApiProofs History ApiFacts
  Outcome Docs3 Json Grammar Grammar2 Docs6.
Local Open Scope string_scope.
Set Implicit Arguments.

(** ** C54 *)

(** Whatever the tokenizer: what counts of a text is its tokens. *)
Lemma c54_same_tokens : forall (tk : tokenizer) E g yerr (a : api tk) M b bufs bs M' b' bufs' bs',
  at_start a -> content M (b :: bufs) = Some bs -> content M' (b' :: bufs') = Some bs' ->
  tokenize tk bs = tokenize tk bs' ->
  observe (document E g yerr M (b :: bufs) a) = observe (document E g yerr M' (b' :: bufs') a) /\
  result (document E g yerr M (b :: bufs) a) = result (document E g yerr M' (b' :: bufs') a).
Proof.
  intros tk E g yerr a M b bufs bs M' b' bufs' bs' Ha Hc Hc' Ht.
  assert (H : observe (document E g yerr M (b :: bufs) a) = observe (document E g yerr M' (b' :: bufs') a)).
  { rewrite (document_observe E g yerr M b bufs Ha Hc), (document_observe E g yerr M' b' bufs' Ha Hc').
    unfold doc_obs. rewrite Ht. auto. }
  split; auto. apply result_observe. auto.
Qed.

(** Two JSON texts of the same document, in any environment (exceptions of the callbacks
    and of the value types, failing allocations), supported or not. *)
Lemma c54_layout : forall E g yerr (a : api json_tk) M b bufs bs M' b' bufs' bs' j,
  at_start a -> content M (b :: bufs) = Some bs -> content M' (b' :: bufs') = Some bs' ->
  json_text bs j -> json_text bs' j ->
  observe (document E g yerr M (b :: bufs) a) = observe (document E g yerr M' (b' :: bufs') a) /\
  result (document E g yerr M (b :: bufs) a) = result (document E g yerr M' (b' :: bufs') a).
Proof.
  intros E g yerr a M b bufs bs M' b' bufs' bs' j Ha Hc Hc' Hj Hj'.
  apply c54_same_tokens with bs bs'; auto. rewrite (grammar_tokens Hj), (grammar_tokens Hj'). auto.
Qed.

(** White space around a text. *)
Lemma c54_white_space : forall E g yerr (a : api json_tk) M b bufs bs M' b' bufs' w w' j,
  at_start a -> content M (b :: bufs) = Some bs -> content M' (b' :: bufs') = Some (w ++ bs ++ w')%list ->
  json_text bs j -> ws w -> ws w' ->
  result (document E g yerr M (b :: bufs) a) = result (document E g yerr M' (b' :: bufs') a).
Proof.
  intros E g yerr a M b bufs bs M' b' bufs' w w' j Ha Hc Hc' Hj Hw Hw'.
  refine (proj2 (@c54_layout E g yerr a M b bufs bs M' b' bufs' _ j Ha Hc Hc' Hj _)).
  inversion Hj as [w1 t w2 j' H1 Ht H2]; subst.
  replace (w ++ (w1 ++ t ++ w2) ++ w')%list with ((w ++ w1) ++ t ++ (w2 ++ w'))%list by (rewrite !app_assoc; auto).
  constructor; auto; apply Forall_app; auto.
Qed.

(** Any text can be replaced by the compact one that [print] makes of its document. *)
Lemma c54_compact : forall E g yerr (a : api json_tk) M b bufs bs M' b' bufs' j,
  at_start a -> content M (b :: bufs) = Some bs -> content M' (b' :: bufs') = Some (print j) ->
  json_text bs j -> printable j = true ->
  result (document E g yerr M (b :: bufs) a) = result (document E g yerr M' (b' :: bufs') a).
Proof.
  intros E g yerr a M b bufs bs M' b' bufs' j Ha Hc Hc' Hj Hp.
  refine (proj2 (@c54_same_tokens json_tk E g yerr a M b bufs bs M' b' bufs' _ Ha Hc Hc' _)).
  rewrite (grammar_tokens Hj), json_round_trip; auto.
Qed.
