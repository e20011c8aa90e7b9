(** Property theorems, part 25: the program of Readme.md (C52). *)

From Verif Require Import Spec StreamSpec Model Infra Total Safe Refine Main Stream Api ApiProofs History ApiFacts
  Outcome Access Json Grammar Log StreamApi Docs12 Docs24 Readme.
Local Open Scope string_scope.
Set Implicit Arguments.

Lemma rows_supported rows js : Forall2 row_json rows js -> supported (JArr js) readme = true.
Proof.
  intros H. cbn [supported readme]. apply forallb_forall. intros j Hj.
  induction H as [|r j' rows js Hr H IH]; [contradiction|]. destruct Hj as [->|Hj]; auto.
  rewrite (row_supported Hr). destruct Hr as (kvs & -> & _). reflexivity.
Qed.

Lemma rows_written rows : Forall2 written rows (map row_view rows).
Proof. induction rows; constructor; auto using row_written. Qed.

(** The program of Readme.md, for any number of records with any data, the members of each in any
    order, any JSON text of them in any buffers, after any history: the object callback is
    invoked exactly once for each record, in order, and the calls in it return the data of
    that record - the default value for a missing integer, whatever the records before. *)
Lemma c52_readme : forall (tk : tokenizer) g yerr P (a : api tk) M b bufs rows js,
  reads g yerr readme a M b bufs (JArr js) -> Forall2 row_json rows js ->
  (forall s, p_store P (VSc (SStr s)) = None) -> (forall l o, a_res (p_cb P 0 l o) = CTrue) ->
  exists ws w, doc g yerr P M b bufs a = Parsed (past a ++ map (fun v => Ev 0 (OSelf v)) ws) w /\ Forall2 written rows ws.
Proof.
  intros tk g yerr P a M b bufs rows js Hr Hrows Hp Hcb.
  rewrite (doc_expected P Hr (rows_supported Hrows)). unfold readme. cbn [den].
  destruct (elems_in_turn P readme_row js true (past a)) as [emp ->].
  destruct (rows_in_turn P Hrows Hp Hcb (past a)) as [ws ->]. cbn [andthen expected].
  exists (map row_view rows). eexists. split; [rewrite map_map; reflexivity|apply rows_written].
Qed.

Lemma c52_readme_text : forall g yerr P (a : api json_tk) M b bufs bs rows js,
  history g yerr readme a -> at_start a -> content M (b :: bufs) = Some bs ->
  json_text bs (JArr js) -> Forall2 row_json rows js ->
  (forall s, p_store P (VSc (SStr s)) = None) -> (forall l o, a_res (p_cb P 0 l o) = CTrue) ->
  exists ws w, doc g yerr P M b bufs a = Parsed (past a ++ map (fun v => Ev 0 (OSelf v)) ws) w /\ Forall2 written rows ws.
Proof.
  intros g yerr P a M b bufs bs rows js Hh Ha Hc Hj. apply c52_readme.
  split; auto. split; auto. exists bs, (ended []). split; auto. apply grammar_tokens; auto.
Qed.

(** While the text arrives: the records that are complete have been written, no other. *)
Lemma c52_readme_as_they_arrive : forall (tk : tokenizer) g yerr P (a : api tk) M b bufs rows js,
  receives g yerr readme a M b bufs (TArrStart :: flat_map toks js) -> Forall2 row_json rows js ->
  (forall s, p_store P (VSc (SStr s)) = None) -> (forall l o, a_res (p_cb P 0 l o) = CTrue) ->
  exists ws w, fed g yerr P M b bufs a = Parsed (past a ++ map (fun v => Ev 0 (OSelf v)) ws) w /\ Forall2 written rows ws.
Proof.
  intros tk g yerr P a M b bufs rows js Hr Hrows Hp Hcb. pose proof (rows_supported Hrows) as Hs.
  assert (Hps : psupported (PtArr js) readme = true)
    by (pose proof Hs as Hs2; unfold readme in *; cbn [supported psupported psup_arr] in *; rewrite andb_true_r; exact Hs2).
  rewrite (@c41_beginning_outcome tk g yerr P readme a M b bufs (PtArr js) Hr Hps). unfold readme. cbn [pden]. unfold parr.
  destruct (pelems_in_turn P readme_row js true (past a)) as [emp ->].
  destruct (rows_in_turn P Hrows Hp Hcb (past a)) as [ws ->]. cbn [andthen expected].
  exists (map row_view rows). eexists. split; [rewrite map_map; reflexivity|apply rows_written].
Qed.
