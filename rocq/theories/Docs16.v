(** Property theorems, part 16: the reply to a document depends on nothing earlier (C44). *)

From Verif Require Import Spec Model Infra Total Safe Refine Main Api ApiProofs Callbacks History ApiFacts
  Unset MoveState Outcome Accept Access Findings Docs5 Json Same Lock LockApi JsonPlaced.
Local Open Scope string_scope.
Set Implicit Arguments.

(** ** C44 *)

(** The callbacks of a program as in Spec.v see only what the API shows. *)
Lemma lift_same_eyes P : same_eyes (lift P).
Proof. split; [|reflexivity]. intros c l T T' a a' _ H. unfold lift. simpl. rewrite H. reflexivity. Qed.

(** Whatever documents the parser has been used for before (see [history]): the next
    text, in any chunks, of any tokens (those of JSON or not, accepted by the parsers or
    not, complete or not), with any callbacks that see what the API shows, is replied to
    as by a new parser - the same callbacks with the same arguments; if it fails, the
    same ParsingError; and if its first token is one that may begin a value of the
    declaration, the same state of all parsers, down to isSet(), isEmpty() and get().
    Declarations: without Ignore and without unions as elements of arrays; nulls in the
    text only if the elements of all arrays are scalars.  [values_lead]: a value comes first
    and after every key. *)
Lemma c44_like_new : forall (tk : tokenizer) E g yerr flat s (a : api tk) M b bufs bs,
  same_eyes E -> regular flat s = true -> history g yerr s a -> at_start a ->
  content M (b :: bufs) = Some bs -> values_lead true (fst (tokenize tk bs)) ->
  (flat = true \/ ~ In TNull (fst (tokenize tk bs))) ->
  same_reply (exists t r, fst (tokenize tk bs) = t :: r /\ opener (kind_s s) t = true)
    (document E g yerr M (b :: bufs) a) (document E g yerr M (b :: bufs) (start tk g (mk s) (past a))).
Proof. intros. eapply history_reply; eauto. Qed.

(** For JSON text: any bytes at all. *)
Lemma c44_like_new_json : forall E g yerr flat s (a : api json_tk) M b bufs bs,
  same_eyes E -> regular flat s = true -> history g yerr s a -> at_start a ->
  content M (b :: bufs) = Some bs ->
  (flat = true \/ ~ In TNull (fst (tokenize json_tk bs))) ->
  same_reply (exists t r, fst (tokenize json_tk bs) = t :: r /\ opener (kind_s s) t = true)
    (document E g yerr M (b :: bufs) a) (document E g yerr M (b :: bufs) (start json_tk g (mk s) (past a))).
Proof. intros. eapply history_reply; eauto using json_placed. Qed.

(** Two parsers of one declaration, each with a history of its own. *)
Lemma c44_two_histories : forall (tk : tokenizer) E g yerr flat s (a1 a2 : api tk) M b bufs bs,
  same_eyes E -> regular flat s = true ->
  history g yerr s a1 -> at_start a1 -> history g yerr s a2 -> at_start a2 -> past a1 = past a2 ->
  content M (b :: bufs) = Some bs -> values_lead true (fst (tokenize tk bs)) ->
  (flat = true \/ ~ In TNull (fst (tokenize tk bs))) ->
  same_reply (exists t r, fst (tokenize tk bs) = t :: r /\ opener (kind_s s) t = true)
    (document E g yerr M (b :: bufs) a1) (document E g yerr M (b :: bufs) a2).
Proof.
  intros tk E g yerr flat s a1 a2 M b bufs bs He Ht H1 S1 H2 S2 Hp Hc Hpl Hn.
  pose proof (@history_reply tk E g yerr flat s a1 M b bufs bs He Ht H1 S1 Hc Hpl Hn) as R1. pose proof (@history_reply tk E g yerr flat s a2 M b bufs bs He Ht H2 S2 Hc Hpl Hn) as R2.
  unfold past in Hp. rewrite Hp in R1. unfold same_reply in *.
  destruct (document E g yerr M (b :: bufs) (start tk g (mk s) (m_log (a_m a2)))) as [c|e c| |u|];
    destruct (document E g yerr M (b :: bufs) a1) as [c1|e1 c1| |u1|]; try contradiction;
    destruct (document E g yerr M (b :: bufs) a2) as [c2|e2 c2| |u2|]; try contradiction.
  - destruct R1 as [L1 V1], R2 as [L2 V2]. split; [congruence|]. intros V. rewrite V1, V2; auto.
  - destruct R1 as (E1 & L1 & V1), R2 as (E2 & L2 & V2). split; [congruence|]. split; [congruence|]. intros V. rewrite V1, V2; auto.
Qed.

Lemma not_opener E g t r s : m_stack s = [[]] -> rdy false (m_root s) -> begins t = true -> kind_of (m_root s) <> KIgn ->
  opener (kind_of (m_root s)) t = false -> exists e, run E g (t :: r) s = RThrow e s.
Proof.
  intros Hs Hr Hb Hk Ho. cbn [run]. unfold dispatch.
  assert (Hf : exists f, fuel_for s = S (S f)) by (unfold fuel_for; exists (5 * List.length (m_stack s) + 6 * height (m_root s) + 5); lia).
  destruct Hf as [f ->]. cbn [exec].
  apply (body_cases (fun R => exists e, bind R (run E g r) = RThrow e s)); [|intros x s' []]. intros E1 _ _ _.
  cbn [call_body]. unfold body_disp. rewrite Hs. cbn [exec].
  apply (body_cases (fun R => exists e, bind R (run E g r) = RThrow e s)).
  2:{ intros x s' Hin. exfalso. cbn [faults get] in Hin.
      destruct (m_root s); destruct t; try contradiction; try discriminate Hb; cbn [kind_of opener] in Ho;
        try (rewrite takes_scalar_eq, Ho in Hin; contradiction); try (destruct (Hk eq_refl));
        destruct Hr as [-> _]; contradiction. }
  intros E2 _ _ _. cbn [call_body]. unfold body_on, at_node. cbn [get]. destruct (m_root s) as [b1 ty v cb|b1 sd st vals e cb|b1 st key vals e ecb cb|b1 k v ms ig ign cb|b1 st v ty tm cur ms ig cb|i];
    destruct t; try discriminate Hb; try discriminate Ho; cbn [kind_of opener] in Ho; try (eexists; reflexivity).
  - cbn [on_val]. rewrite takes_scalar_eq, Ho. eexists; reflexivity.
  - cbn [on_arr]. destruct Hr as [-> _]. eexists; reflexivity.
  - cbn [on_arr]. destruct Hr as [-> _]. eexists; reflexivity.
  - cbn [on_uni]. rewrite takes_scalar_eq, Ho. eexists; reflexivity.
  - cbn [on_uni]. destruct (String.eqb tm ""); [eexists; reflexivity|discriminate Ho].
  - destruct (Hk eq_refl).
  - destruct (Hk eq_refl).
  - destruct (Hk eq_refl).
Qed.

(** And if there is no such first token: the document fails, no callback is invoked and
    nothing about the parsers changes - in a used parser, values of the document before
    are still there. *)
Lemma c44_untouched : forall (tk : tokenizer) E g yerr flat s (a : api tk) M b bufs bs,
  regular flat s = true -> history g yerr s a -> at_start a ->
  content M (b :: bufs) = Some bs -> values_lead true (fst (tokenize tk bs)) ->
  ~ (exists t r, fst (tokenize tk bs) = t :: r /\ opener (kind_s s) t = true) ->
  exists x a', document E g yerr M (b :: bufs) a = AThrow x a' /\ past a' = past a /\ m_root (a_m a') = m_root (a_m a).
Proof.
  intros tk E g yerr flat s a M b bufs bs Ht Hh Ha Hc Hp Hn. destruct (history_inv Hh) as ((G1 & _ & G3) & _).
  pose proof (document_observe E g yerr M b bufs Ha Hc) as Ho. unfold doc_obs in Ho.
  assert (Hk : kind_of (m_root (a_m a)) = kind_s s) by (rewrite <- G1; destruct (m_root (a_m a)); reflexivity).
  destruct (tokenize tk bs) as [ts x]. cbn [fst] in *. destruct ts as [|t r].
  - cbn [run empty_stack m_stack] in Ho. destruct x as [st|];
      destruct (document E g yerr M (b :: bufs) a) as [c|e c| |u|]; try discriminate Ho; cbn [observe] in Ho;
      injection Ho as _ H _ _ _; exists e, c; (split; [reflexivity|]); unfold past; rewrite H; auto.
  - destruct Hp as [Hp _]. specialize (Hp eq_refl).
    destruct (@not_opener E g t r (mkS (m_root (a_m a)) [[]] (m_log (a_m a)))) as [e He]; auto.
    + simpl. rewrite Hk. destruct s; simpl; discriminate.
    + simpl. rewrite Hk. destruct (opener (kind_s s) t) eqn:K; auto. destruct Hn. eauto.
    + rewrite He in Ho. destruct (document E g yerr M (b :: bufs) a) as [c|x' c| |u|]; try discriminate Ho.
      cbn [observe] in Ho. injection Ho as _ H _ _ _. exists x', c. split; [reflexivity|]. unfold past. rewrite H. auto.
Qed.

(** The proviso about nulls is needed (the finding in C07): a new parser of arrays of
    arrays accepts "[null]", after the document "[[1]]" it is rejected. *)
Lemma c44_null_refuted :
  result (docs yes "[~]" (new arr_arr)) = Parsed [] (View true true (Some (VVec [])) 0 []) /\
  then_doc yes "[~]" (docs yes "[[1]]" (new arr_arr)) = Failed [] "Parsers stack is empty".
Proof. vm_compute. auto. Qed.
