(** Property theorems, part 5 (C35), with their proofs. *)

From Verif Require Import Spec Model Infra Total Safe Refine Main Api ApiProofs History ApiFacts
  Outcome DenFacts Closed Accept Complete Order Calls Members Round Blank Access Findings Docs1 Docs3 Unset.
Local Open Scope string_scope.
Set Implicit Arguments.

(** ** C35 *)

(** root.isSet(). *)
Definition root_set (tk : tokenizer) (a : api tk) : bool := is_set (m_root (a_m a)).

(** The root value of the document had been completely accepted: no parser is
    waiting for a token. *)
Definition root_ended (tk : tokenizer) (a : api tk) : Prop := m_stack (a_m a) = [].

(** The last callback invoked was the finish callback of the root ([cb_s]: the one in
    the declaration), it returned false or threw, and [x] is its error. *)
Definition root_callback_failed (tk : tokenizer) (E : env) (s : schema) (x : perr) (a : api tk) : Prop :=
  exists c l T arg e, cb_s s = Some c /\ past a = (l ++ [Ev c (obs_of arg)])%list /\
    cb_error msg_cb_false (co_res (e_cb E c l T arg)) e /\ pe_sj x = caught e.

Lemma unset_doc (tk : tokenizer) E g yerr s (a : api tk) M b bufs bs w x a' :
  V_of g s (a_m a) -> at_start a -> content M (b :: bufs) = Some bs ->
  (let m := mkS (m_root (a_m a)) [[]] (m_log (a_m a)) in
   post E g w m (run E g (fst (tokenize tk bs)) m)) -> w = true ->
  document E g yerr M (b :: bufs) a = AThrow x a' ->
  root_set a' = false \/ root_ended a' \/ root_callback_failed E s x a'.
Proof.
  intros (_ & _ & Hcb) Ha Hc Hp -> Hd. pose proof (document_observe E g yerr M b bufs Ha Hc) as Ho.
  rewrite Hd in Ho. unfold doc_obs in Ho. destruct (tokenize tk bs) as [ts y]. cbn [fst] in Hp. cbv zeta in Hp.
  unfold root_set, root_ended, root_callback_failed, past.
  assert (HW : forall m, W g true m -> is_set (m_root m) = false \/ m_stack m = []).
  { intros m [_ H]. destruct (is_set (m_root m)); auto. }
  destruct (run E g ts _) as [m|e m|u|]; try discriminate.
  - destruct Hp as [_ Hp]. assert (Hm : a_m a' = m).
    { destruct y; [destruct (empty_stack m)|]; cbn [observe] in Ho; inversion Ho; auto. }
    rewrite Hm. destruct (HW m Hp); auto.
  - cbn [observe] in Ho. injection Ho as Hx Hm _ _ _. rewrite Hm.
    destruct Hp as (Hr & _ & [Hp|(c & l & T & arg & H1 & H2 & H3)]); [destruct (HW m Hp); auto|].
    right; right. exists c, l, T, arg, e. split; [|auto].
    unfold rk in Hr. injection Hr as _ Hr. cbn [m_root] in Hr. congruence.
Qed.

(** Any declaration, any parse() and finish() calls before ([os], with callbacks
    [E0]), any text in any chunks, any callbacks: if the root parser was not set and
    the next document fails, in parse() or in finish(), the root parser is not set -
    unless its value had been completely accepted, or its own finish callback failed. *)
Lemma c35_unset_after_failure : forall (tk : tokenizer) E0 E g yerr s l (os : list op) (a : api tk) M b bufs bs x a',
  do_ops E0 g yerr os (start tk g (mk s) l) = AOk a -> at_start a ->
  content M (b :: bufs) = Some bs -> root_set a = false ->
  document E g yerr M (b :: bufs) a = AThrow x a' ->
  root_set a' = false \/ root_ended a' \/ root_callback_failed E s x a'.
Proof.
  intros tk E0 E g yerr s l os a M b bufs bs x a' Ho Ha Hc Hu Hd.
  pose proof (V_ops _ _ _ _ _ _ Ho) as HV.
  apply (@unset_doc tk E g yerr s a M b bufs bs true x a'); auto.
  apply run_unset. split; [apply V_reset, HV|]. intros _ H. unfold root_set in Hu. cbn [m_root] in H. congruence.
Qed.

(** The same if the root parser was set by an earlier document, provided the first
    token of the document is one that may begin a value of the root's declaration
    ([opener]: null, a scalar of the declared type, '[' or '{'), and that copying the
    value of a root Value does not run out of memory. *)
Lemma c35_opened : forall (tk : tokenizer) E0 E g yerr s l (os : list op) (a : api tk) M b bufs bs x a' t ts y,
  do_ops E0 g yerr os (start tk g (mk s) l) = AOk a -> at_start a ->
  content M (b :: bufs) = Some bs -> tokenize tk bs = (t :: ts, y) -> opener (kind_s s) t = true ->
  (forall ty, kind_s s = KVal ty -> forall c m, e_alloc E c m = None) ->
  document E g yerr M (b :: bufs) a = AThrow x a' ->
  root_set a' = false \/ root_ended a' \/ root_callback_failed E s x a'.
Proof.
  intros tk E0 E g yerr s l os a M b bufs bs x a' t ts y Ho Ha Hc Ht Hop Hmem Hd.
  pose proof (V_ops _ _ _ _ _ _ Ho) as HV.
  apply (@unset_doc tk E g yerr s a M b bufs bs true x a'); auto.
  rewrite Ht. cbn [fst]. destruct HV as (HV & Hk & _).
  apply run_opener with (mem := match kind_s s with KVal _ => true | _ => false end); auto; [|apply V_reset, HV| |].
  - destruct (kind_s s); try discriminate. intros _. eapply Hmem; eauto.
  - intros ty H. cbn [m_root] in H. rewrite Hk in H. rewrite H. reflexivity.
  - cbn [m_root]. rewrite Hk. auto.
Qed.

(** Without that proviso it is false: after "1", the document "a" is rejected at its
    first token and the Value still shows 1. *)
Lemma c35_stale_value_refuted :
  exists s, s = SVal TyInt None /\
  match docs yes "1" (new s) with
  | AOk a =>
      match docs yes "a" a with
      | AThrow x a' => root_set a' = true /\ v_val (view_of (m_root (a_m a'))) = Some (VSc (SInt 1))
      | _ => False
      end
  | _ => False
  end.
Proof. exists (SVal TyInt None). split; [reflexivity|]. vm_compute. auto. Qed.

(** Every callback returns false. *)
Definition no : prog := mkP (fun _ _ _ => mkA [] None CFalse) (fun _ => "?") (fun _ => None).

(** The two exceptions occur: "1!" (the rest is rejected by the JSON tokenizer) and a
    finish callback that returns false leave the parser set. *)
Lemma c35_exceptions_occur :
  match docs yes "1!" (new (SVal TyInt None)) with
  | AThrow x a' => root_set a' = true /\ root_ended a'
  | _ => False
  end /\
  match docs no "1" (new (SVal TyInt (Some 5))) with
  | AThrow x a' => root_set a' = true /\ ~ root_ended a' /\
      root_callback_failed (lift no) (SVal TyInt (Some 5)) x a'
  | _ => False
  end.
Proof.
  split; [vm_compute; auto|].
  assert (H : match docs no "1" (new (SVal TyInt (Some 5))) with
    | AThrow x a => pe_sj x = msg_cb_false /\ m_stack (a_m a) = [[]] /\ is_set (m_root (a_m a)) = true /\
                    past a = [Ev 5 (OVal (VSc (SInt 1)))]
    | _ => False end) by (vm_compute; auto).
  destruct (docs no "1" (new (SVal TyInt (Some 5)))) as [a|x a| |u|]; try exact H.
  destruct H as (H1 & H2 & H3 & H4). split; [exact H3|]. split; [unfold root_ended; congruence|].
  exists 5, [], (m_root (a_m a)), (AVal (VSc (SInt 1))), (XStd msg_cb_false). split; [reflexivity|]. split; [exact H4|]. split; [simpl; auto|exact H1].
Qed.
