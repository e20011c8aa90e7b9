(** Property theorems, part 26: new documents can be read by old programs (C53). *)

From Verif Require Import Spec Model Infra Total Safe Refine Main Api ApiProofs History Outcome DenFacts Closed Accept Complete Newer Blank Grown Findings Docs1 Docs2 Docs22.
Local Open Scope string_scope.
Set Implicit Arguments.

(** ** C53 *)

(** Further members anywhere where unknown members are ignored change nothing: values,
    callbacks and their arguments, errors. *)
Lemma c53_new_documents : forall (tk : tokenizer) g yerr P s (a : api tk) M b bufs M' b' bufs' j j',
  grown s j j' -> reads g yerr s a M b bufs j -> reads g yerr s a M' b' bufs' j' -> supported j' s = true ->
  doc g yerr P M' b' bufs' a = doc g yerr P M b bufs a.
Proof.
  intros tk g yerr P s a M b bufs M' b' bufs' j j' Hg H1 H2 Hs.
  rewrite (doc_expected P H2 Hs), (doc_expected P H1 (sup_grown Hg Hs)), (@den_grown P j' j s (past a) Hg). auto.
Qed.

(** Not if the object was empty: "{}" is accepted, "{X1}" lacks the mandatory member. *)
Lemma c53_empty_refuted :
  exists s, s = SObj OPlain [(mkM (SStr "A") false None, SVal TyInt (Some 7))] true None /\
    (exists w, result (docs yes "{}" (new s)) = Parsed [] w) /\
    (exists m, result (docs yes "{X1}" (new s)) = Failed [] m).
Proof.
  eexists. split; [reflexivity|].
  repeat match goal with |- _ /\ _ => split end; eexists; vm_compute; reflexivity.
Qed.
