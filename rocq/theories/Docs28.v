(** Property theorems, part 28: the order in which members are declared (C55). *)

From Verif Require Import Spec Model Infra Total Safe Refine Main Api ApiProofs History Outcome DenFacts Accept Complete Newer Closed Members Round Shuffle Docs2 Docs22.
From Coq Require Import Permutation.
Local Open Scope string_scope.
Set Implicit Arguments.

(** [reordered] is symmetric. *)
Definition conv (R : value -> value -> Prop) : value -> value -> Prop := fun v v' => R v' v.

Lemma rval_sym R : forall s s' v v', rval R s s' v v' -> rval (conv R) s' s v' v.
Proof.
  fix IH 5. intros s s' v v' H. destruct H as [t cb x|e e' cb l l' H|e e' ecb cb l l' H|ms ms' ign cb l l' L L' H|ms ms' ign cb o o' H|t tm ms ms' cb i i' m c m' c' v v' Hi Hi' E H].
  - constructor.
  - constructor. induction H as [|x x' l l' Hx H IHl]; constructor; auto.
  - constructor. induction H as [|x x' l l' [E Hx] H IHl]; constructor; auto.
  - constructor; auto. intros i i' m c m' c' v v' Hi Hi' E Hv Hv'. eapply IH, H; eauto.
  - constructor. destruct o, o'; auto.
  - econstructor; eauto.
Qed.

Lemma like_sym R m m' c c' : like R m m' c c' -> like (conv R) m' m c' c.
Proof. intros [E H]. split; auto. destruct (m_def m), (m_def m'); auto using rval_sym. Qed.

Lemma reordered_sym R : forall s s', reordered R s s' -> reordered (conv R) s' s.
Proof.
  fix IH 3. intros s s' H. destruct H as [t cb| |st e e' cb H|st e e' ecb cb H|k ms ms' ign cb H1 H2 H3 H4 H5|st t tm ms ms' cb H1 H2 H3 H4 H5].
  - constructor.
  - constructor.
  - constructor; auto.
  - constructor; auto.
  - apply ro_object; [exact H2|exact H1|apply Permutation_sym; exact H3| |]; intros m c m' c' Hi Hi' E; [apply like_sym; eapply H4; eauto|apply IH; eapply H5; eauto].
  - apply ro_union; [exact H2|exact H1|apply Permutation_sym; exact H3| |]; intros m c m' c' Hi Hi' E; [apply like_sym; eapply H4; eauto|apply IH; eapply H5; eauto].
Qed.

(** ** C55 *)

(** A document that is accepted with one declaration is accepted with the members of
    its objects and unions declared in any other order: the same callbacks are invoked
    in the same order and told the same, and the parsers show the same. *)
Lemma c55_reordered : forall (tk tk' : tokenizer) g g' yerr yerr' R P P' s s' (a : api tk) (a' : api tk') M b bufs M' b' bufs' j l w,
  reordered R s s' -> rprog R P P' -> rlog R (past a) (past a') ->
  reads g yerr s a M b bufs j -> reads g' yerr' s' a' M' b' bufs' j -> supported j s = true ->
  doc g yerr P M b bufs a = Parsed l w ->
  exists l' w', doc g' yerr' P' M' b' bufs' a' = Parsed l' w' /\ rlog R l l' /\ rview R s s' w w'.
Proof.
  intros tk tk' g g' yerr yerr' R P P' s s' a a' M b bufs M' b' bufs' j l w Hn HP Hl Hr Hr' Hs Hd.
  rewrite (doc_expected P Hr Hs) in Hd. destruct (den P j s (past a)) as [l1 [e|w1]] eqn:Hx; [discriminate|].
  injection Hd as -> ->. destruct (@reordered_den R P P' HP j s s' (past a) (past a') Hn Hl Hs l w Hx) as (Hs' & l' & w' & Hd' & Hl' & Hw').
  exists l', w'. rewrite (doc_expected P' Hr' Hs'), Hd'. auto.
Qed.

(** Whatever the two programs do (as long as they accept): the two declarations accept
    exactly the same documents. *)
Lemma silent_reordered R : rprog R silent silent.
Proof. split; simpl; auto. Qed.

Lemma reordered_accept R j s s' : reordered R s s' -> supported j s = true -> verdict j s <> None -> supported j s' = true /\ verdict j s' <> None.
Proof.
  intros Hn Hs Hv. apply (accepts_iff j s [] silent_agreeable) in Hv. destruct Hv as (l0 & w0 & H0).
  destruct (@reordered_den R silent silent (@silent_reordered R) j s s' [] [] Hn (Forall2_nil _) Hs l0 w0 H0) as (Hs' & l1 & w1 & H1 & _).
  split; auto. apply (accepts_iff j s' [] silent_agreeable). eauto.
Qed.

Lemma c55_same_documents : forall (tk tk' : tokenizer) g g' yerr yerr' R P P' s s' (a : api tk) (a' : api tk') M b bufs M' b' bufs' j,
  reordered R s s' -> agreeable P -> agreeable P' ->
  reads g yerr s a M b bufs j -> reads g' yerr' s' a' M' b' bufs' j ->
  supported j s = true -> supported j s' = true ->
  ((exists l w, doc g yerr P M b bufs a = Parsed l w) <-> (exists l w, doc g' yerr' P' M' b' bufs' a' = Parsed l w)).
Proof.
  intros tk tk' g g' yerr yerr' R P P' s s' a a' M b bufs M' b' bufs' j Hn HP HP' Hr Hr' Hs Hs'.
  rewrite (@c19_accepted_iff_matches tk g yerr P s a M b bufs j HP Hr Hs), (@c19_accepted_iff_matches tk' g' yerr' P' s' a' M' b' bufs' j HP' Hr' Hs').
  split; intros Hv; [exact (proj2 (reordered_accept j Hn Hs Hv))|exact (proj2 (reordered_accept j (reordered_sym Hn) Hs' Hv))].
Qed.
