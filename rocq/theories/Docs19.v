(** Property theorems, part 19: running out of memory (C47). *)

From Verif Require Import Spec Model Infra Total Safe Refine Main Api ApiProofs Callbacks History ApiFacts
  Unset MoveState Outcome Accept Access Findings Docs5 Same Lock LockApi Log Cut Docs16.
Local Open Scope string_scope.
Set Implicit Arguments.

(** ** C47 *)

(** What the callbacks have been told by the time a call is over. *)
Definition told_by (tk : tokenizer) (r : ares tk) (l : list event) : Prop :=
  match r with AOk a | AThrow _ a => past a = l | _ => False end.

(** [r], with the memory there is, and [r0], with enough memory: the same; or [r] is a
    ParsingError with the text of the exception of the allocation that failed ([struck]),
    the next parse() starts a new document, and the callbacks have been told
    the beginning of what they would have been told. *)
Definition same_or_cut (tk : tokenizer) (E : env) (r r0 : ares tk) : Prop :=
  r = r0 \/
  exists x e a, r = AThrow e a /\ struck E x /\ pe_sj e = caught x /\ at_start a /\
    (forall l, told_by r0 l -> exists l', l = (past a ++ l')%list).

Section Ops.
Variable tk : tokenizer.
Variable E : env.
Variable g : nat.
Variable yerr : list ascii -> string.
Notation api := (api tk).

Definition ycut (q : api) (r0 r : yres tk) : Prop :=
  r = r0 \/
  exists x a, r = YErr a /\ struck E x /\ a_err a = caught x /\ a_reset a = a_reset q /\
    (forall a0, r0 = YOk a0 \/ r0 = YErr a0 -> exists l', past a0 = (past a ++ l')%list).

Lemma after_cut ts x (a : api) :
  ycut a (ApiProofs.after (run (plenty E) g ts (a_m a)) x a) (ApiProofs.after (run E g ts (a_m a)) x a).
Proof.
  destruct (run_cut E g ts (a_m a)) as [->|(e & y & s' & -> & Hy & Hx & Hl)]; [left; auto|].
  right. exists e, (with_h (with_err (with_m a s') (caught e)) (HDead tk)). split; [reflexivity|].
  split; [exists y; auto|]. split; [reflexivity|]. split; [reflexivity|]. intros a0 Ha.
  destruct (run (plenty E) g ts (a_m a)) as [m|e' m|u|]; cbn [ApiProofs.after] in Ha.
  - destruct x; destruct Ha as [Ha|Ha]; try discriminate; injection Ha as <-; exact Hl.
  - destruct Ha as [Ha|Ha]; try discriminate; injection Ha as <-; exact Hl.
  - destruct Ha; discriminate.
  - destruct Ha; discriminate.
Qed.

Lemma feed_cut bs (a : api) : ycut a (feed (plenty E) g bs a) (feed E g bs a).
Proof.
  destruct (a_h a) as [st|] eqn:Hh.
  - rewrite !(feed_run _ g bs _ Hh). apply after_cut.
  - left. destruct bs; simpl; rewrite Hh; auto.
Qed.

Lemma complete_cut (a : api) : ycut a (complete (plenty E) g a) (complete E g a).
Proof.
  destruct (a_h a) as [st|] eqn:Hh.
  - rewrite !(complete_run _ g _ Hh). apply after_cut.
  - left. unfold complete. rewrite Hh. auto.
Qed.

Lemma told_lift (r0 : yres tk) ok err l : told_by (lift_y r0 ok err) l ->
  (forall a, told_by (ok a) l -> past a = l) -> (forall a, told_by (err a) l -> past a = l) ->
  exists a0, (r0 = YOk a0 \/ r0 = YErr a0) /\ past a0 = l.
Proof. destruct r0; simpl; try contradiction; eauto. Qed.

Lemma told_throw M (a : api) l : told_by (throw_parsing_error yerr M a) l -> past a = l.
Proof. destruct (throw_cases yerr M a) as [[e ->]| ->]; simpl; auto; contradiction. Qed.
End Ops.

(** Every parse() call, with any text, of a Parser in any state: *)
Lemma c47_parse : forall (tk : tokenizer) E g yerr M b bs (a : api tk), M b = Some bs ->
  same_or_cut E (parse E g yerr M b a) (parse (plenty E) g yerr M b a).
Proof.
  intros tk E g yerr M b bs a Hb. unfold parse. rewrite Hb.
  set (a1 := mkApi _ _ _ _ _).
  pose proof (yres_data E g bs (do_reset a1)) as Hd.
  destruct (feed_cut E g bs (do_reset a1)) as [->|(x & a' & Hf & Hx & He & _ & Hl)]; [left; auto|]. rewrite Hf in *. cbn [lift_y].
  destruct Hd as [Hd _].
  assert (Ht : exists e, throw_parsing_error yerr M (with_reset a' true) = AThrow e (with_reset a' true) /\ pe_sj e = a_err a').
  { unfold throw_parsing_error. cbn [with_reset a_data a_err]. rewrite Hd, data_do_reset. cbn [a_data a1].
    destruct (List.length bs) as [|n] eqn:Hn; [eauto|]. rewrite Hb, Hn, Nat.leb_refl. eauto. }
  destruct Ht as (e & -> & He'). right. exists x, e, (with_reset a' true). split; [reflexivity|]. split; [exact Hx|].
  split; [congruence|]. split; [left; reflexivity|]. intros l Ht.
  apply told_lift in Ht; [|auto|intros a0 H; apply (told_throw _ _ (with_reset a0 true)) in H; exact H].
  destruct Ht as (a0 & Ha0 & <-). apply Hl; auto.
Qed.

(** Every finish() call, if the buffer of the last parse() call is alive: *)
Lemma c47_finish : forall (tk : tokenizer) E g yerr M (a : api tk),
  (forall b n, a_data a = Some (b, n) -> exists bytes, M b = Some bytes /\ n <= List.length bytes) ->
  same_or_cut E (Api.finish E g yerr M a) (Api.finish (plenty E) g yerr M a).
Proof.
  intros tk E g yerr M a Hb. unfold Api.finish.
  pose proof (complete_data E g (with_reset a true)) as Hd.
  destruct (complete_cut E g (with_reset a true)) as [->|(x & a' & Hf & Hx & He & Hr & Hl)]; [left; auto|]. rewrite Hf in *. cbn [lift_y].
  assert (Ht : exists e, throw_parsing_error yerr M a' = AThrow e a' /\ pe_sj e = a_err a').
  { unfold throw_parsing_error. cbn [with_reset a_data] in Hd. rewrite Hd.
    destruct (a_data a) as [[b n]|] eqn:Ha; [|eauto]. destruct n as [|n]; [eauto|].
    destruct (Hb _ _ eq_refl) as (bytes & Hm & Hle). rewrite Hm. apply Nat.leb_le in Hle. rewrite Hle. eauto. }
  destruct Ht as (e & -> & He'). right. exists x, e, a'. split; [reflexivity|]. split; [exact Hx|].
  split; [congruence|]. split; [left; exact Hr|]. intros l Ht.
  apply told_lift in Ht; [| |intros a0 H; apply told_throw in H; exact H].
  - destruct Ht as (a0 & Ha0 & <-). apply Hl; auto.
  - intros a0. destruct (empty_stack (a_m a0)); auto.
Qed.

Lemma same_or_cut_then tk E (r r0 : ares tk) (k k0 : api tk -> ares tk) :
  same_or_cut E r r0 -> (forall a, r0 = AOk a -> same_or_cut E (k a) (k0 a)) ->
  (forall a l, r0 = AOk a -> told_by (k0 a) l -> exists l', l = (past a ++ l')%list) ->
  same_or_cut E
    (match r with AOk a => k a | AThrow x a => AThrow x a | ATerm _ => ATerm tk | AUB _ u => AUB tk u | AFuel _ => AFuel tk end)
    (match r0 with AOk a => k0 a | AThrow x a => AThrow x a | ATerm _ => ATerm tk | AUB _ u => AUB tk u | AFuel _ => AFuel tk end).
Proof.
  intros [->|(x & e & a & -> & Hx & He & Ha & Hl)] Hk Hp.
  - destruct r0; auto; left; auto.
  - right. exists x, e, a. split; [reflexivity|]. split; [auto|]. split; [auto|]. split; [auto|]. intros l Ht.
    destruct r0 as [a0|e0 a0| |u|]; auto. destruct (Hp a0 l eq_refl Ht) as [l' ->]. 
    destruct (Hl (past a0) eq_refl) as [l'' ->]. exists (l'' ++ l')%list. rewrite app_assoc. reflexivity.
Qed.

Section Grow.
Variable tk : tokenizer.
Variable E : env.
Variable g : nat.
Variable yerr : list ascii -> string.

Lemma after_grow (a : api tk) ts x a' :
  ApiProofs.after (run E g ts (a_m a)) x a = YOk a' \/ ApiProofs.after (run E g ts (a_m a)) x a = YErr a' ->
  exists l, past a' = (past a ++ l)%list.
Proof.
  pose proof (run_ext E g ts (a_m a)) as H. intros Ha.
  destruct (run E g ts (a_m a)); cbn [ApiProofs.after] in Ha; [destruct x| | |]; destruct Ha as [Ha|Ha]; try discriminate;
    injection Ha as <-; exact H.
Qed.

Lemma feed_grow bs (a : api tk) a' : feed E g bs a = YOk a' \/ feed E g bs a = YErr a' -> exists l, past a' = (past a ++ l)%list.
Proof.
  destruct (a_h a) as [st|] eqn:Hh.
  - rewrite (feed_run E g bs _ Hh). apply after_grow.
  - intros H. exists []. rewrite app_nil_r. destruct bs; simpl in H; rewrite Hh in H; destruct H as [H|H]; congruence.
Qed.

Lemma complete_grow (a : api tk) a' : complete E g a = YOk a' \/ complete E g a = YErr a' -> exists l, past a' = (past a ++ l)%list.
Proof.
  destruct (a_h a) as [st|] eqn:Hh.
  - rewrite (complete_run E g _ Hh). apply after_grow.
  - intros H. exists []. rewrite app_nil_r. unfold complete in H. rewrite Hh in H; destruct H as [H|H]; congruence.
Qed.

Lemma parse_grow M b (a : api tk) l : told_by (parse E g yerr M b a) l -> exists l', l = (past a ++ l')%list.
Proof.
  unfold parse. destruct (M b) as [bs|]; [|contradiction]. intros H.
  apply told_lift in H; [|auto|intros a0 H1; apply (told_throw _ _ (with_reset a0 true)) in H1; exact H1].
  destruct H as (a0 & Ha0 & <-). apply feed_grow in Ha0. unfold past in *. unfold do_reset in Ha0.
  destruct (a_reset _); exact Ha0.
Qed.

Lemma finish_grow M (a : api tk) l : told_by (Api.finish E g yerr M a) l -> exists l', l = (past a ++ l')%list.
Proof.
  unfold Api.finish. intros H.
  apply told_lift in H; [| |intros a0 H1; apply told_throw in H1; exact H1].
  - destruct H as (a0 & Ha0 & <-). apply complete_grow in Ha0. exact Ha0.
  - intros a0. destruct (empty_stack (a_m a0)); auto.
Qed.

Lemma parse_all_grow M bufs : forall (a : api tk) l, told_by (parse_all E g yerr M bufs a) l -> exists l', l = (past a ++ l')%list.
Proof.
  induction bufs as [|b bufs IH]; intros a l; simpl.
  - intros <-. exists []. rewrite app_nil_r. auto.
  - pose proof (parse_grow M b a) as H. destruct (parse E g yerr M b a) as [a'|e a'| |u|]; try contradiction; auto.
    intros Ht. destruct (IH _ _ Ht) as [l' ->]. destruct (H (past a') eq_refl) as [l'' ->]. exists (l'' ++ l')%list. rewrite app_assoc. auto.
Qed.
End Grow.

(** Every document, in any chunks: *)
Lemma c47_document : forall (tk : tokenizer) E g yerr M b bufs bs (a : api tk), content M (b :: bufs) = Some bs ->
  same_or_cut E (document E g yerr M (b :: bufs) a) (document (plenty E) g yerr M (b :: bufs) a).
Proof.
  intros tk E g yerr M b bufs bs a Hc. unfold document.
  assert (Hp : forall bufs bs (a : api tk), content M bufs = Some bs ->
    same_or_cut E (parse_all E g yerr M bufs a) (parse_all (plenty E) g yerr M bufs a)).
  { clear. induction bufs as [|b bufs IH]; intros bs a Hc; [left; reflexivity|]. cbn [parse_all]. cbn [content fold_right] in Hc.
    destruct (M b) as [x|] eqn:Hb; [|discriminate]. fold (content M bufs) in Hc. destruct (content M bufs) as [y|] eqn:Hy; [|discriminate].
    apply same_or_cut_then with (k := parse_all E g yerr M bufs) (k0 := parse_all (plenty E) g yerr M bufs); [eapply c47_parse; eauto|intros; eapply IH; eauto|]. intros a0 l _. apply parse_all_grow. }
  apply same_or_cut_then with (k := Api.finish E g yerr M) (k0 := Api.finish (plenty E) g yerr M); [eapply Hp; eauto| |intros a0 l _; apply finish_grow].
  intros a' Ha. apply c47_finish.
  assert (Hd : forall bufs b bs (a a' : api tk), content M (b :: bufs) = Some bs -> parse_all (plenty E) g yerr M (b :: bufs) a = AOk a' ->
    forall b n, a_data a' = Some (b, n) -> exists bytes, M b = Some bytes /\ n <= List.length bytes).
  { clear. induction bufs as [|b' bufs IH]; intros b bs a a' Hc Ha b0 n Hd.
    - cbn [parse_all] in Ha. destruct (parse (plenty E) g yerr M b a) as [q|e q| |u|] eqn:Hq; try discriminate. injection Ha as <-.
      cbn [content fold_right] in Hc. destruct (M b) as [x|] eqn:Hb; [|discriminate].
      rewrite (parse_data _ _ _ M b a Hb (or_introl Hq)) in Hd. injection Hd as <- <-. eauto.
    - change (content M (b :: b' :: bufs)) with (match M b, content M (b' :: bufs) with Some x, Some z => Some (x ++ z)%list | _, _ => None end) in Hc.
      destruct (M b) as [x|] eqn:Hb; [|discriminate].
      destruct (content M (b' :: bufs)) as [y|] eqn:Hy; [|discriminate].
      remember (b' :: bufs) as r. cbn [parse_all] in Ha. destruct (parse (plenty E) g yerr M b a) as [q|e q| |u|]; try discriminate.
      subst r. eapply IH; eauto. }
  eapply Hd; eauto.
Qed.

(** In particular a document that is accepted in spite of failing allocations has exactly
    the effect it has with enough memory. *)
Lemma c47_accepted : forall (tk : tokenizer) E g yerr M b bufs bs (a a' : api tk), content M (b :: bufs) = Some bs ->
  document E g yerr M (b :: bufs) a = AOk a' -> document (plenty E) g yerr M (b :: bufs) a = AOk a'.
Proof.
  intros tk E g yerr M b bufs bs a a' Hc Hd. destruct (@c47_document tk E g yerr M b bufs bs a Hc) as [H|(x & e & q & H & _)]; congruence.
Qed.

Lemma clean_document tk g yerr s E M bufs (a a' : api tk) : clean s = true -> history g yerr s a ->
  document E g yerr M bufs a = AOk a' \/ (exists x, document E g yerr M bufs a = AThrow x a') -> history g yerr s a'.
Proof.
  intros Hs Hh. unfold document.
  assert (Hp : forall bufs (a a' : api tk), history g yerr s a ->
    parse_all E g yerr M bufs a = AOk a' \/ (exists x, parse_all E g yerr M bufs a = AThrow x a') -> history g yerr s a').
  { clear -Hs. induction bufs as [|b bufs IH]; intros a a' Hh H; cbn [parse_all] in H.
    - destruct H as [H|[x H]]; [injection H as <-; auto|discriminate].
    - destruct (parse E g yerr M b a) as [q|e q| |u|] eqn:Hq; try (destruct H as [H|[x H]]; discriminate).
      + eapply IH; [|exact H]. eapply h_parse; eauto.
      + destruct H as [H|[x H]]; [discriminate|]. injection H as <- <-. eapply h_parse; eauto. }
  destruct (parse_all E g yerr M bufs a) as [q|e q| |u|] eqn:Hq; intros H; try (destruct H as [H|[x H]]; discriminate).
  - eapply h_finish; [exact Hs| |exact H]. eapply Hp; eauto.
  - destruct H as [H|[x H]]; [discriminate|]. injection H as <- <-. eapply Hp; eauto.
Qed.

(** The parser is usable afterwards: of a declaration without arrays, unions and Ignore
    ([clean]), whatever allocations fail in a document ([E]: no condition), the next one,
    with enough memory, is replied to as by a new parser.  (C44 has the same for failures
    outside of arrays, for more declarations.) *)
Lemma c47_next_document : forall (tk : tokenizer) E E' g yerr flat s (a a1 : api tk) M1 b1 bufs1 M b bufs bs,
  clean s = true -> regular flat s = true -> history g yerr s a ->
  (document E g yerr M1 (b1 :: bufs1) a = AOk a1 \/ exists x, document E g yerr M1 (b1 :: bufs1) a = AThrow x a1) ->
  same_eyes E' -> at_start a1 -> content M (b :: bufs) = Some bs -> values_lead true (fst (tokenize tk bs)) ->
  (flat = true \/ ~ In TNull (fst (tokenize tk bs))) ->
  same_reply (exists t r, fst (tokenize tk bs) = t :: r /\ opener (kind_s s) t = true)
    (document E' g yerr M (b :: bufs) a1) (document E' g yerr M (b :: bufs) (start tk g (mk s) (past a1))).
Proof.
  intros tk E E' g yerr flat s a a1 M1 b1 bufs1 M b bufs bs Hcl Hr Hh Hd He Ha Hc Hl Hn.
  eapply c44_like_new; eauto. eapply clean_document; eauto.
Qed.

(** ** Findings *)

(** A program without callbacks whose allocations of value copies fail. *)
Definition oom : env :=
  mkEnv (fun _ _ _ _ => mkCO [] [] None CTrue) (fun _ => "?") (fun _ => None) (fun _ _ => Some (FAt 0 (XStd "std::bad_alloc"))).

(** ParsingError, but the parser is set and shows the value of the earlier document:
    Value::on() assigns the value before it marks the parser, value.cpp:60-64. *)
Lemma c47_stale_value_refuted :
  match docs yes "a" (new (SVal TyStr None)) with
  | AOk a =>
      match document oom 0 ye (mem_of ["b"]) [0] a with
      | AThrow x a' => pe_sj x = "std::bad_alloc" /\ root_set a' = true /\
          v_val (view_of (m_root (a_m a'))) = Some (VSc (SStr "a"))
      | _ => False
      end
  | _ => False
  end.
Proof. vm_compute. auto. Qed.
