(** Property theorems, part 6 (C36), with their proofs. *)

From Verif Require Import Spec Model Infra Total Safe Refine Main Api ApiProofs History ApiFacts
  Outcome DenFacts Closed Accept Complete Order Calls Members Round Blank Access Findings
  Free Looks Docs1 Docs2 Docs3 Json Grammar Grammar2.
Local Open Scope string_scope.
Set Implicit Arguments.

(** ** C36 *)

Lemma json_reads g yerr s (a : api json_tk) M b bufs j :
  history g yerr s a -> at_start a -> content M (b :: bufs) = Some (print j) -> printable j = true ->
  reads g yerr s a M b bufs j.
Proof.
  intros Hh Ha Hc Hp. split; auto. split; auto. exists (print j), (ended []). split; auto. apply json_round_trip; auto.
Qed.

(** With the JSON tokenizer of Json.v: the printed text of any document (int64_t,
    finite doubles, UTF-8 strings), cut into chunks in any way, after any history, has the specified outcome. *)
Lemma c36_text_outcome : forall g yerr P s (a : api json_tk) M b bufs j,
  history g yerr s a -> at_start a -> content M (b :: bufs) = Some (print j) ->
  printable j = true -> supported j s = true ->
  doc g yerr P M b bufs a = expected (den P j s (past a)).
Proof. intros. apply doc_expected; auto. apply json_reads; auto. Qed.

(** Conversely any text whatsoever: if parse() and finish() succeed, then the grammar of
    JSON ([json_text] in Grammar.v) gives exactly one document for it; if that is in the
    supported class, it matches the declaration and the parser objects show what the
    specification says. *)
Lemma c36_accepted_text : forall g yerr P s (a a' : api json_tk) M b bufs bs,
  history g yerr s a -> at_start a -> content M (b :: bufs) = Some bs ->
  document (lift P) g yerr M (b :: bufs) a = AOk a' ->
  exists j, json_text bs j /\
    (forall j', json_text bs j' -> j' = j) /\
    (supported j s = true ->
       verdict j s <> None /\ den P j s (past a) = (past a', inr (view_of (m_root (a_m a'))))).
Proof.
  intros g yerr P s a a' M b bufs bs Hh Ha Hc Hd.
  destruct (proj1 (c24_finish_accepts (lift P) g yerr M b bufs Ha Hc) (ex_intro _ a' Hd)) as (ts & st & m & Ht & _).
  destruct (json_texts_are_documents bs Ht) as [j ->]. exists j.
  split; [apply tokenize_json; eauto|]. split; [intros j' Hj; apply json_text_unique with bs; auto; apply tokenize_json; eauto|]. intros Hs.
  assert (Hr : reads g yerr s a M b bufs j) by (split; auto; split; eauto).
  pose proof (doc_expected P Hr Hs) as He. unfold doc in He. rewrite Hd in He. simpl in He.
  split.
  - eapply c19_accepted_matches; eauto. unfold doc. rewrite Hd. reflexivity.
  - unfold past in *. destruct (den P j s (m_log (a_m a))) as [l [e|w]]; simpl in He; [discriminate|].
    injection He as -> ->. reflexivity.
Qed.

(** So text that is not JSON by the grammar is always reported, by parse() or by finish():
    with any declaration (Ignore, unions and everything else that consumes a value without
    looking at it included), any callbacks, in any chunks, whatever was parsed before. *)
Lemma c36_not_json_reported : forall E g yerr (a : api json_tk) M b bufs bs,
  at_start a -> content M (b :: bufs) = Some bs -> (forall j, ~ json_text bs j) ->
  forall a', document E g yerr M (b :: bufs) a <> AOk a'.
Proof.
  intros E g yerr a M b bufs bs Ha Hc Hn a' Hd.
  destruct (proj1 (c24_finish_accepts E g yerr M b bufs Ha Hc) (ex_intro _ a' Hd)) as (ts & st & m & Ht & _).
  destruct (json_texts_are_documents bs Ht) as [j ->]. apply (Hn j). apply tokenize_json. eauto.
Qed.

(** C04 with callbacks: [bare s] is the declaration without its callbacks, [looks]: all
    of them return true, pop nothing and assign nothing.  Then the value round-trips
    as well, and only the callbacks' invocations are added to the history. *)
Lemma c04_round_trip_watched : forall (tk : tokenizer) g yerr P s (a : api tk) M b bufs v,
  own_types_stored P -> storable (bare s) -> looks P s -> has s v -> reads g yerr s a M b bufs (to_json s v) ->
  exists w, doc g yerr P M b bufs a = Parsed (past a ++ events P s (to_json s v))%list w /\
            v_set w = true /\ v_val w = Some v.
Proof.
  intros tk g yerr P s a M b bufs v HS Hs Hl Hv Hr.
  destruct (round HS v Hs (has_bare _ _ Hv)) as (Hsup & Hg & w & Hw & Hset).
  rewrite json_bare in *. rewrite supported_bare in Hsup.
  exists w. split; [|split; auto].
  - rewrite (doc_expected P Hr Hsup), (den_looks _ _ Hl), Hw. reflexivity.
  - destruct Hg as (w' & Hw' & Hval). rewrite Hw in Hw'. inversion Hw'; subst; auto.
Qed.

(** Values survive being printed as JSON text and parsed. *)
Lemma c36_value_round_trip : forall g yerr P s (a : api json_tk) M b bufs v,
  history g yerr s a -> at_start a -> own_types_stored P -> storable (bare s) -> looks P s -> has s v -> printable (to_json s v) = true ->
  content M (b :: bufs) = Some (print (to_json s v)) ->
  exists w, doc g yerr P M b bufs a = Parsed (past a ++ events P s (to_json s v))%list w /\
            v_set w = true /\ v_val w = Some v.
Proof.
  intros g yerr P s a M b bufs v Hh Ha HS Hst Hl Hv Hp Hc.
  eapply c04_round_trip_watched; eauto. apply json_reads; auto.
Qed.

(** Every scalar has a text - for a finite double its exact decimal number - from which a
    Value of its own type gets back exactly this scalar, and which a Value of any other
    type rejects: no double is taken for an integer, or the other way round. *)
Lemma c36_scalar_text : forall g yerr P t (a : api json_tk) M b bufs x,
  history g yerr (SVal t None) a -> at_start a -> printable (JSc x) = true ->
  content M (b :: bufs) = Some (print (JSc x)) ->
  doc g yerr P M b bufs a =
  if vtype_eqb (ty_of x) t
  then Parsed (past a) (View true false (Some (VSc x)) 0 [])
  else Failed (past a) ("Unexpected token " ++ tok_kind (TSc x)).
Proof.
  intros g yerr P t a M b bufs x Hh Ha Hp Hc.
  apply (@c05_value_document json_tk g yerr P t a M b bufs (JSc x)). apply json_reads; auto.
Qed.

(** Not only printed texts: with any text that the grammar of JSON ([json_text] in
    Grammar.v: white space, escapes and surrogate pairs, fractions and exponents) gives for
    a document, cut into chunks in any way, after any history, the outcome is the specified
    one for this document. *)
Lemma c36_grammar_text : forall g yerr P s (a : api json_tk) M b bufs bs j,
  history g yerr s a -> at_start a -> content M (b :: bufs) = Some bs -> json_text bs j -> supported j s = true ->
  doc g yerr P M b bufs a = expected (den P j s (past a)).
Proof.
  intros g yerr P s a M b bufs bs j Hh Ha Hc Hj Hs. apply doc_expected; auto.
  split; auto. split; auto. exists bs, (ended []). split; auto. apply grammar_tokens; auto.
Qed.
