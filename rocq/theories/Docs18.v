(** Property theorems, part 18: what is held does not grow with the text (C46). *)

From Verif Require Import Spec Model Infra Total Safe Refine Main Api ApiProofs Callbacks History ApiFacts
  Unset MoveState Outcome Accept Access Typed Recall Docs5 Docs9 Same Lock LockApi From Docs17 Space.
Local Open Scope string_scope.
Set Implicit Arguments.

(** ** C46 *)

(** [streamed yerr n ts s g a]: [a] is a Parser over a parser object ign_free as [s],
    after any calls; [ts]: what yajl has reported of the current document; [n]: the sum
    of the nesting depths of the documents that failed or were abandoned. *)
Inductive streamed (tk : tokenizer) (yerr : list ascii -> string)
  : nat -> list token -> schema -> nat -> api tk -> Prop :=
| sd_new s l g : streamed yerr 0 [] s g (start tk g (mk s) l)
| sd_parse n ts s g a E M b a' : streamed yerr n ts s g a ->
    do_op E g yerr (OpParse M b) a = AOk a' ->
    streamed yerr n (ts ++ reported_in (OpParse M b) a) s g a'
| sd_finish n ts s g a E M a' : streamed yerr n ts s g a ->
    do_op E g yerr (OpFinish M) a = AOk a' -> streamed yerr n [] s g a'
| sd_error n ts s g a E o x a' : streamed yerr n ts s g a ->
    do_op E g yerr o a = AThrow x a' ->
    streamed yerr (n + nesting 0 (ts ++ reported_in o a)) [] s g a'
| sd_pop n ts s g a rel : streamed yerr n ts s g a -> streamed yerr n ts s g (user_pop rel a)
| sd_again n ts s g a g' : streamed yerr n ts s g a ->
    streamed yerr (n + nesting 0 ts) [] s g' (start tk g' (m_root (a_m a)) (past a))
| sd_callback n ts s g a w pi c : streamed yerr n ts s g a ->
    streamed yerr n ts (declare_at w pi c s) g (user_set_callback w pi c a).

Definition depth (ts : list token) : nat := fold_left (fun d t => deeper t d) ts 0.

Lemma nesting_app ts us : forall d, nesting d (ts ++ us) = Nat.max (nesting d ts) (nesting (fold_left (fun d t => deeper t d) ts d) us).
Proof.
  induction ts as [|t ts IH]; intros d; cbn [app nesting fold_left].
  - pose proof (nesting_ge us d). lia.
  - rewrite IH. lia.
Qed.

Lemma streamed_used tk yerr n ts s g (a : api tk) : streamed yerr n ts s g a -> exists l, used yerr s l g a.
Proof.
  induction 1 as [s l g|n ts s g a E M b a' _ [l IH] Ho|n ts s g a E M a' _ [l IH] Ho|n ts s g a E o x a' _ [l IH] Ho
    |n ts s g a rel _ [l IH]|n ts s g a g' _ [l IH]|n ts s g a w pi c _ [l IH]].
  - exists l. constructor.
  - exists l. apply (u_call E (OpParse M b) IH). left. exact Ho.
  - exists l. apply (u_call E (OpFinish M) IH). left. exact Ho.
  - exists l. apply (u_call E o IH). right. eauto.
  - exists l. apply u_pop. auto.
  - exists l. eapply u_again. exact IH.
  - exists (past a). eapply u_callback. exact IH.
Qed.

Section Op.
Variable tk : tokenizer.
Variable E : env.
Variable g : nat.
Variable yerr : list ascii -> string.
Variable s : schema.
Variable l : list event.
Hypothesis Hd : ign_free s = true.
Notation api := (api tk).

Lemma space_after n d (a : api) ts x : sound s l (a_m a) -> Marked n d (a_m a) ->
  match after (run E g ts (a_m a)) x a with
  | YOk a' => Marked n (fold_left (fun d t => deeper t d) ts d) (a_m a')
  | YErr a' => marks (m_root (a_m a')) <= n + nesting d ts
  | _ => True
  end.
Proof.
  intros Hs HJ. pose proof (@J_run E g s l ts n d (a_m a) Hd Hs HJ) as K. unfold after.
  destruct (run E g ts (a_m a)); auto; try (destruct x); simpl; auto.
  apply J_marks in K. pose proof (fold_nesting ts d). lia.
Qed.

Definition spot (n : nat) (ts : list token) (a : api) : Prop :=
  Marked n (depth ts) (a_m a) /\ (a_reset a = true -> ts = []).

Lemma spot_parse M b n ts (a : api) : sound s l (a_m a) -> spot n ts a ->
  match parse E g yerr M b a with
  | AOk a' => spot n (ts ++ reported_in (OpParse M b) a) a'
  | AThrow _ a' => marks (m_root (a_m a')) <= n + nesting 0 (ts ++ reported_in (OpParse M b) a)
  | _ => True
  end.
Proof.
  intros Hs [HJ Hr]. unfold reported_in. unfold parse. destruct (M b) as [bs|] eqn:Hb; auto. set (a1 := mkApi _ _ _ _ _).
  assert (H1 : sound s l (a_m (do_reset a1)) /\ Marked n (depth ts) (a_m (do_reset a1)) /\ a_reset (do_reset a1) = false).
  { unfold do_reset. destruct (a_reset a1) eqn:Hr1; cbn [a_m a_reset].
    - split; [apply (@sound_stack s l (a_m a) [[]]); exact Hs|]. split; auto.
      apply J_le. rewrite (Hr Hr1) in HJ. apply J_marks in HJ. unfold depth in HJ. simpl in *. lia.
    - auto. }
  destruct H1 as (H1 & H2 & H3).
  pose proof (yres_data E g bs (do_reset a1)) as Hy.
  destruct (a_h (do_reset a1)) as [st|] eqn:Hh.
  - assert (Hst : (if a_reset a then Some (tk_init tk) else match a_h a with HLive _ st => Some st | HDead _ => None end) = Some st).
    { unfold do_reset, a1 in Hh. cbn [a_reset a_h] in Hh. destruct (a_reset a); cbn [a_h] in Hh; [congruence|].
      rewrite Hh. reflexivity. }
    rewrite Hst. pose proof (@space_after n (depth ts) (do_reset a1) (fst (tokens tk bs st)) (snd (tokens tk bs st)) H1 H2) as K.
    rewrite (feed_run E g bs _ Hh) in Hy |- *.
    destruct (after _ _ _) as [q|q| |u|]; cbn [lift_y]; auto.
    + split.
      * unfold depth. rewrite fold_left_app. exact K.
      * destruct Hy as [_ ->]. rewrite H3. discriminate.
    + assert (Kn : marks (m_root (a_m (with_reset q true))) <= n + nesting 0 (ts ++ fst (tokens tk bs st))).
      { simpl. rewrite nesting_app. unfold depth in K. lia. }
      destruct (throw_cases yerr M (with_reset q true)) as [[e ->]| ->]; auto.
  - destruct bs as [|c bs].
    + simpl in Hy |- *. rewrite Hh in *. cbn [lift_y].
      assert (Kn : marks (m_root (a_m (with_reset (do_reset a1) true))) <= n + nesting 0 (ts ++ match
        (if a_reset a then Some (tk_init tk) else match a_h a with HLive _ st => Some st | HDead _ => None end) with
        Some st => fst (tokens tk [] st) | None => [] end)).
      { cbn [a_m with_reset]. apply J_marks in H2. rewrite nesting_app. pose proof (fold_nesting ts 0). unfold depth in H2. lia. }
      destruct (throw_cases yerr M (with_reset (do_reset a1) true)) as [[e ->]| ->]; auto.
    + simpl in Hy |- *. rewrite Hh in *. cbn [lift_y].
      assert (Kn : forall us, marks (m_root (a_m (with_reset (do_reset a1) true))) <= n + nesting 0 (ts ++ us)).
      { intros us. cbn [a_m with_reset]. apply J_marks in H2. rewrite nesting_app. pose proof (fold_nesting ts 0). unfold depth in H2. lia. }
      destruct (throw_cases yerr M (with_reset (do_reset a1) true)) as [[e ->]| ->]; auto.
Qed.

Lemma spot_finish M n ts (a : api) : sound s l (a_m a) -> spot n ts a ->
  match Api.finish E g yerr M a with
  | AOk a' => marks (m_root (a_m a')) <= n
  | AThrow _ a' => marks (m_root (a_m a')) <= n + nesting 0 (ts ++ reported_in (OpFinish M) a)
  | _ => True
  end.
Proof.
  intros Hs [HJ _]. unfold reported_in, Api.finish.
  destruct (a_h a) as [st|] eqn:Hh.
  - rewrite (@complete_run tk E g (with_reset a true) st Hh).
    pose proof (@space_after n (depth ts) (with_reset a true) (fst (tk_fin tk st)) (snd (tk_fin tk st)) Hs HJ) as K.
    rewrite nesting_app. fold (depth ts).
    destruct (after _ _ _) as [q|q| |u|]; cbn [lift_y]; auto.
    + destruct (empty_stack (a_m q)) eqn:He.
      * apply empty_stack_iff in He. unfold Marked, skipping in K. rewrite He in K. exact K.
      * apply J_marks in K. pose proof (fold_nesting (fst (tk_fin tk st)) (depth ts)). lia.
    + destruct (throw_cases yerr M q) as [[e ->]| ->]; auto. lia.
  - unfold complete. cbn [with_reset a_h]. rewrite Hh. cbn [lift_y].
    assert (Kn : marks (m_root (a_m (with_reset a true))) <= n + nesting 0 (ts ++ [])).
    { cbn [a_m with_reset]. apply J_marks in HJ. rewrite nesting_app. pose proof (fold_nesting ts 0). unfold depth in HJ. lia. }
    destruct (throw_cases yerr M (with_reset a true)) as [[e ->]| ->]; auto.
Qed.
End Op.

Lemma streamed_spot tk yerr n ts s g (a : api tk) : compiles s -> streaming s = true -> streamed yerr n ts s g a -> spot n ts a.
Proof.
  intros Hc Hst Hs. revert Hc Hst.
  induction Hs as [s l g|n ts s g a E M b a' Hs IH Ho|n ts s g a E M a' Hs IH Ho|n ts s g a E o x a' Hs IH Ho
    |n ts s g a rel Hs IH|n ts s g a g' Hs IH|n ts s g a w pi c Hs IH]; intros Hc Hst;
    try (specialize (IH Hc Hst); destruct (streamed_used Hs) as [l Hu]; pose proof (used_sound Hc Hu) as Hso);
    pose proof (streaming_ign_free _ Hst) as Hd.
  - split; [|discriminate]. apply J_le. simpl. rewrite marks_set_disp. pose proof (held_slots (fit_mk Hc) Hst).
    rewrite marks_mk. lia.
  - pose proof (@spot_parse tk E g yerr s l Hd M b n ts a Hso IH) as K. cbn [do_op] in Ho. rewrite Ho in K. exact K.
  - pose proof (@spot_finish tk E g yerr s l Hd M n ts a Hso IH) as K. cbn [do_op] in Ho. rewrite Ho in K. split; auto. apply J_le; auto.
  - assert (K : marks (m_root (a_m a')) <= n + nesting 0 (ts ++ reported_in o a)).
    { destruct o as [M b|M]; simpl in Ho.
      - pose proof (@spot_parse tk E g yerr s l Hd M b n ts a Hso IH) as K. rewrite Ho in K. exact K.
      - pose proof (@spot_finish tk E g yerr s l Hd M n ts a Hso IH) as K. rewrite Ho in K. exact K. }
    split; auto. apply J_le; auto.
  - destruct IH as [K1 K2]. split; auto. apply J_pop; auto.
  - destruct IH as [K1 K2]. split; auto. apply J_le. simpl. rewrite marks_set_disp. apply J_marks in K1.
    pose proof (fold_nesting ts 0). unfold depth in K1. lia.
  - assert (Hcs : compiles s) by (apply (compiles_uncb Hc); symmetry; apply uncb_declare).
    assert (Hss : streaming s = true) by (rewrite <- streaming_uncb, <- (uncb_declare w pi c s), streaming_uncb; exact Hst).
    destruct (IH Hcs Hss) as [K1 K2]. split; auto. apply J_callback; auto.
Qed.

(** After any calls: what the parser objects hold is bounded by the declaration and the
    nesting of the document (skipped unknown members need one mark per level), however
    long it is; after finish() only the declaration counts, except for documents that
    failed. *)
Lemma c46_held : forall (tk : tokenizer) yerr n ts s g (a : api tk),
  compiles s -> streaming s = true -> streamed yerr n ts s g a ->
  held (m_root (a_m a)) <= slots s + n + nesting 0 ts.
Proof.
  intros tk yerr n ts s g a Hc Hst Hs. destruct (streamed_used Hs) as [l Hu].
  rewrite (held_slots (proj1 (used_sound Hc Hu)) Hst).
  destruct (streamed_spot Hc Hst Hs) as [K _]. apply J_marks in K. pose proof (fold_nesting ts 0). unfold depth in K. lia.
Qed.

(** ... and between any two tokens of the next call ([us]: reported so far), in
    particular whenever a callback is invoked or an error is reported. *)
Lemma c46_at_any_moment : forall (tk : tokenizer) yerr n ts s g (a : api tk) E us m,
  compiles s -> streaming s = true -> streamed yerr n ts s g a ->
  let m0 := if a_reset a then dispatcher_reset (a_m a) else a_m a in
  (run E g us m0 = ROk m \/ exists e, run E g us m0 = RThrow e m) ->
  held (m_root m) <= slots s + n + nesting 0 (ts ++ us).
Proof.
  intros tk yerr n ts s g a E us m Hc Hst Hs m0 Hr. destruct (streamed_used Hs) as [l Hu].
  pose proof (used_sound Hc Hu) as Hso. destruct (streamed_spot Hc Hst Hs) as [K Kr].
  assert (Hso0 : sound s l m0) by (unfold m0; destruct (a_reset a); auto; apply sound_stack; auto).
  assert (K0 : Marked n (depth ts) m0).
  { unfold m0. destruct (a_reset a); auto. rewrite (Kr eq_refl) in *. apply J_marks in K. apply J_le. unfold depth in K. simpl in *. lia. }
  pose proof (@J_run E g s l us n _ m0 (streaming_ign_free _ Hst) Hso0 K0) as KJ.
  pose proof (@okt_run E g s l us m0 Hso0) as Ks. rewrite nesting_app. fold (depth ts).
  destruct Hr as [Hr|[e Hr]]; rewrite Hr in *; rewrite (held_slots (proj1 Ks) Hst).
  - apply J_marks in KJ. pose proof (fold_nesting us (depth ts)). lia.
  - lia.
Qed.

(** [all_read yerr s g a]: [a] has only been given documents that it accepted, with any
    callbacks, in any pieces. *)
Inductive all_read (tk : tokenizer) (yerr : list ascii -> string) (s : schema) (g : nat) : api tk -> Prop :=
| ar_new l : all_read yerr s g (start tk g (mk s) l)
| ar_doc a E M b bufs bs a' : all_read yerr s g a -> content M (b :: bufs) = Some bs ->
    document E g yerr M (b :: bufs) a = AOk a' -> all_read yerr s g a'.

(** Then it holds exactly what a new one holds. *)
Lemma c46_constant : forall (tk : tokenizer) yerr s g (a : api tk),
  compiles s -> streaming s = true -> all_read yerr s g a ->
  held (m_root (a_m a)) = slots s.
Proof.
  intros tk yerr s g a Hc Hst Ha.
  assert (K : streamed yerr 0 [] s g a).
  { induction Ha as [l|a E M b bufs bs a' _ IH Hb Ho]; [constructor|]. unfold document in Ho.
    destruct (parse_all E g yerr M (b :: bufs) a) as [a1| | | |] eqn:Hp; try discriminate.
    assert (K : forall bufs ts (a a1 : api tk), streamed yerr 0 ts s g a -> parse_all E g yerr M bufs a = AOk a1 ->
      exists ts', streamed yerr 0 ts' s g a1).
    { clear. intros bufs. induction bufs as [|b bufs IH]; intros ts a a1 Hs Hp; cbn [parse_all] in Hp.
      - injection Hp as <-. eauto.
      - destruct (parse E g yerr M b a) as [a2| | | |] eqn:Hb; try discriminate.
        eapply IH; [|exact Hp]. eapply sd_parse; eauto. }
    destruct (K _ _ _ _ IH Hp) as [ts' K']. eapply sd_finish; eauto. }
  destruct (streamed_used K) as [l Hu]. rewrite (held_slots (proj1 (used_sound Hc Hu)) Hst).
  destruct (streamed_spot Hc Hst K) as [K1 _]. apply J_marks in K1. unfold depth in K1. simpl in K1. lia.
Qed.
