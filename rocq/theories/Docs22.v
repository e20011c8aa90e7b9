(** Property theorems, part 22: declarations can be extended (C50). *)

From Verif Require Import Spec Model Infra Total Safe Refine Main Api ApiProofs History Outcome DenFacts Accept Complete Newer Lighter Docs2.
Local Open Scope string_scope.
Set Implicit Arguments.

(** ** C50 *)

(** The new program reads an old document with the new declaration as the old program
    did with the old one: it is accepted, the same callbacks are invoked in the same
    order with the same values, and the parsers show the same values; added members are
    unset, and have their defaults in stored tuples. *)
Lemma c50_old_documents : forall (tk tk' : tokenizer) g g' yerr yerr' N R P P' s s' (a : api tk) (a' : api tk') M b bufs M' b' bufs' j l w,
  newer N R s s' -> nprog N R P P' -> avoids N j -> nlog N R (past a) (past a') ->
  reads g yerr s a M b bufs j -> reads g' yerr' s' a' M' b' bufs' j -> supported j s = true ->
  doc g yerr P M b bufs a = Parsed l w ->
  exists l' w', doc g' yerr' P' M' b' bufs' a' = Parsed l' w' /\ nlog N R l l' /\ nview R s s' w w'.
Proof.
  intros tk tk' g g' yerr yerr' N R P P' s s' a a' M b bufs M' b' bufs' j l w Hn HP Ha Hl Hr Hr' Hs Hd.
  rewrite (doc_expected P Hr Hs) in Hd. destruct (den P j s (past a)) as [l1 [e|w1]] eqn:Hx; [discriminate|].
  injection Hd as -> ->. destruct (@newer_den N R P P' HP j s s' (past a) (past a') Hn Ha Hl Hs l w Hx) as (Hs' & l' & w' & Hd' & Hl' & Hw').
  exists l', w'. rewrite (doc_expected P' Hr' Hs'), Hd'. auto.
Qed.

(** Where unknown members are rejected nothing is asked of the document. *)
Lemma c50_strict : forall (tk tk' : tokenizer) g g' yerr yerr' R P P' s s' (a : api tk) (a' : api tk') M b bufs M' b' bufs' j l w,
  newer [] R s s' -> nprog [] R P P' -> nlog [] R (past a) (past a') ->
  reads g yerr s a M b bufs j -> reads g' yerr' s' a' M' b' bufs' j -> supported j s = true ->
  doc g yerr P M b bufs a = Parsed l w ->
  exists l' w', doc g' yerr' P' M' b' bufs' a' = Parsed l' w' /\ nlog [] R l l' /\ nview R s s' w w'.
Proof. intros. eapply c50_old_documents; eauto. intros k []. Qed.

(** Whatever the old program was: the new declaration accepts what it accepted. *)
Definition silent : prog := mkP (fun _ _ _ => nothing) (fun _ => "") (fun _ => None).

Lemma silent_agreeable : agreeable silent.
Proof. split; auto. Qed.

Lemma silent_new N R : nprog N R silent silent.
Proof. split; simpl; auto. Qed.

Lemma c50_accepted : forall (tk tk' : tokenizer) g g' yerr yerr' N R P P' s s' (a : api tk) (a' : api tk') M b bufs M' b' bufs' j l w,
  newer N R s s' -> avoids N j -> agreeable P' ->
  reads g yerr s a M b bufs j -> reads g' yerr' s' a' M' b' bufs' j -> supported j s = true ->
  doc g yerr P M b bufs a = Parsed l w ->
  exists l' w', doc g' yerr' P' M' b' bufs' a' = Parsed l' w'.
Proof.
  intros tk tk' g g' yerr yerr' N R P P' s s' a a' M b bufs M' b' bufs' j l w Hn Ha HP Hr Hr' Hs Hd.
  pose proof (@c19_accepted_matches tk g yerr P s a M b bufs j l w Hr Hs Hd) as Hv.
  apply (accepts_iff j s [] silent_agreeable) in Hv. destruct Hv as (l0 & w0 & H0).
  destruct (@newer_den N R silent silent (@silent_new N R) j s s' [] [] Hn Ha (Forall2_nil _) Hs l0 w0 H0) as (Hs' & l1 & w1 & H1 & _).
  apply (proj2 (@c19_accepted_iff_matches tk' g' yerr' P' s' a' M' b' bufs' j HP Hr' Hs')).
  apply (accepts_iff j s' [] silent_agreeable). eauto.
Qed.

(** Parsers that do not store instead of those that store: at least the same documents. *)
Lemma c50_not_storing : forall (tk tk' : tokenizer) g g' yerr yerr' P P' s s' (a : api tk) (a' : api tk') M b bufs M' b' bufs' j l w,
  lighter false s s' -> agreeable P' ->
  reads g yerr s a M b bufs j -> reads g' yerr' s' a' M' b' bufs' j -> supported j s = true ->
  doc g yerr P M b bufs a = Parsed l w ->
  exists l' w', doc g' yerr' P' M' b' bufs' a' = Parsed l' w'.
Proof.
  intros tk tk' g g' yerr yerr' P P' s s' a a' M b bufs M' b' bufs' j l w Hn HP Hr Hr' Hs Hd.
  pose proof (@c19_accepted_matches tk g yerr P s a M b bufs j l w Hr Hs Hd) as Hv.
  destruct (verdict j s) as [x|] eqn:Hx; [|congruence].
  assert (Hs' : supported j s' = true) by (rewrite (lighter_supported j Hn); auto).
  apply (proj2 (@c19_accepted_iff_matches tk' g' yerr' P' s' a' M' b' bufs' j HP Hr' Hs')).
  rewrite (lighter_verdict j Hn Hx). discriminate.
Qed.

(** Any number of versions later: each of them differs from the one before by additions
    ([newer]) or by parsers that do not store any more ([lighter]). *)
Inductive versions (N : list string) : schema -> schema -> Prop :=
| vs_same s : versions N s s
| vs_newer R s s1 s2 : newer N R s s1 -> versions N s1 s2 -> versions N s s2
| vs_lighter s s1 s2 : lighter false s s1 -> versions N s1 s2 -> versions N s s2.

Lemma versions_accept N j s s' : versions N s s' -> avoids N j -> supported j s = true -> verdict j s <> None ->
  supported j s' = true /\ verdict j s' <> None.
Proof.
  induction 1 as [s|R s s1 s2 Hn _ IH|s s1 s2 Hn _ IH]; intros Ha Hs Hv; auto.
  - apply (accepts_iff j s [] silent_agreeable) in Hv. destruct Hv as (l0 & w0 & H0).
    destruct (@newer_den N R silent silent (@silent_new N R) j s s1 [] [] Hn Ha (Forall2_nil _) Hs l0 w0 H0) as (Hs' & l1 & w1 & H1 & _).
    apply IH; auto. apply (accepts_iff j s1 [] silent_agreeable). eauto.
  - destruct (verdict j s) as [x|] eqn:Hx; [|congruence].
    apply IH; auto; [rewrite (lighter_supported j Hn); auto|rewrite (lighter_verdict j Hn Hx); discriminate].
Qed.

Lemma c50_versions : forall (tk tk' : tokenizer) g g' yerr yerr' N P P' s s' (a : api tk) (a' : api tk') M b bufs M' b' bufs' j l w,
  versions N s s' -> avoids N j -> agreeable P' ->
  reads g yerr s a M b bufs j -> reads g' yerr' s' a' M' b' bufs' j -> supported j s = true ->
  doc g yerr P M b bufs a = Parsed l w ->
  exists l' w', doc g' yerr' P' M' b' bufs' a' = Parsed l' w'.
Proof.
  intros tk tk' g g' yerr yerr' N P P' s s' a a' M b bufs M' b' bufs' j l w Hn Ha HP Hr Hr' Hs Hd.
  pose proof (@c19_accepted_matches tk g yerr P s a M b bufs j l w Hr Hs Hd) as Hv.
  destruct (versions_accept Hn Ha Hs Hv) as [Hs' Hv'].
  exact (proj2 (@c19_accepted_iff_matches tk' g' yerr' P' s' a' M' b' bufs' j HP Hr' Hs') Hv').
Qed.
