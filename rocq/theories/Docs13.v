(** Property theorems, part 13: failed allocations (C42). *)

From Verif Require Import Spec Model Infra Total Safe Refine Main Api ApiProofs History ApiFacts
  Outcome Alloc Docs10.
Local Open Scope string_scope.
Set Implicit Arguments.

(** How a call ends; [OutOfMemory]: with std::runtime_error, [NullHandle]: with
    undefined behaviour, because the underlying parser is used although there is none. *)
Inductive freply :=
| Ordinary (r : reply)
| OutOfMemory (text : string) (l : list event) (w : view)
| NullHandle.

(** All callback invocations count. *)
Definition nobody (c : cbid) : bool := false.

Definition freply_of (tk : tokenizer) (r : fres tk) : freply :=
  match r with
  | FOk x => Ordinary (reply_of nobody (AOk (f_a x)))
  | FThrow e x => Ordinary (reply_of nobody (AThrow e (f_a x)))
  | FRuntime t x => OutOfMemory t (past (f_a x)) (view_of (m_root (a_m (f_a x))))
  | FUB _ FNullHandle => NullHandle
  | _ => Ordinary Crashed
  end.

(** The replies to a sequence of calls; the user goes on after either exception. *)
Fixpoint freplies (tk : tokenizer) (E : env) (g : nat) (yerr : list ascii -> string)
  (os : list fop) (x : fapi tk) : list freply :=
  match os with
  | [] => []
  | o :: r =>
      let y := f_op E g yerr o x in
      freply_of y :: match y with FOk x' | FThrow _ x' | FRuntime _ x' => freplies E g yerr r x' | _ => [] end
  end.

(** The calls that did not end with std::runtime_error, as calls in a world where
    allocations always work; and their replies. *)
Fixpoint served (os : list fop) (rs : list freply) : list op :=
  match os, rs with
  | o :: os', r :: rs' =>
      match r with
      | OutOfMemory _ _ _ => served os' rs'
      | _ => match o with FParse _ M b => OpParse M b | FFinish M => OpFinish M end :: served os' rs'
      end
  | _, _ => []
  end.

Fixpoint ordinary (rs : list freply) : list reply :=
  match rs with
  | [] => []
  | Ordinary r :: rs' => r :: ordinary rs'
  | OutOfMemory _ _ _ :: rs' => ordinary rs'
  | NullHandle :: rs' => Crashed :: ordinary rs'
  end.

(** The next parse() call begins a new document: some call has been served, and the last
    one was finish() or failed. *)
Fixpoint new_document (before : bool) (os : list op) (rs : list reply) : bool :=
  match os, rs with
  | OpFinish _ :: os', _ :: rs' => new_document true os' rs'
  | OpParse _ _ :: os', r :: rs' => new_document (match r with Threw _ _ _ _ => true | _ => false end) os' rs'
  | _, _ => before
  end.

Section Alloc.
Variable tk : tokenizer.
Variables (E : env) (g : nat) (yerr : list ascii -> string).

Lemma feed_keeps_reset bs : forall a : api tk,
  match feed E g bs a with YOk q | YErr q => a_reset q = a_reset a | _ => True end.
Proof.
  assert (Hr : forall ts (q : api tk), match deliver E g ts q with YOk q' | YErr q' => a_reset q' = a_reset q | _ => True end).
  { induction ts as [|t ts IH]; intros q; simpl; auto. unfold on_token.
    destruct (dispatch E g t (a_m q)) as [m|e m|u|]; auto.
    - specialize (IH (with_m q m)). destruct (deliver E g ts (with_m q m)); auto.
    - destruct (catch on_handlers e); simpl; auto. }
  induction bs as [|b bs IH]; intros a; simpl; destruct (a_h a) as [st|]; auto.
  unfold react. specialize (Hr (fst (tk_byte tk st b)) a).
  destruct (deliver E g (fst (tk_byte tk st b)) a) as [q|q| |u|]; auto.
  destruct (snd (tk_byte tk st b)) as [st'|]; auto.
  specialize (IH (with_h q (HLive tk st'))). destruct (feed E g bs _); auto; simpl in IH; congruence.
Qed.

Lemma op_reset o (a : api tk) :
  match do_op E g yerr o a with
  | AOk q => a_reset q = match o with OpParse _ _ => false | OpFinish _ => true end
  | AThrow _ q => a_reset q = true
  | _ => True
  end.
Proof.
  destruct o as [M b|M]; cbn [do_op].
  - unfold parse. destruct (M b) as [bytes|]; auto.
    set (a1 := do_reset _). assert (H1 : a_reset a1 = false) by (unfold a1, do_reset; simpl; destruct (a_reset a) eqn:H; auto).
    pose proof (feed_keeps_reset bytes a1) as H. destruct (feed E g bytes a1) as [q|q| |u|]; cbn [lift_y]; auto.
    + congruence.
    + destruct (throw_parsing_error yerr M (with_reset q true)) eqn:Ht; auto.
      * exfalso; eapply throw_not_ok; eauto.
      * apply throw_m in Ht. destruct Ht as [-> _]. auto.
  - destruct (finish E g yerr M a) as [q|x q| |u|] eqn:Hf; auto;
      eapply api_inv_finish; eauto.
Qed.

Lemma freply_lift (r : ares tk) : freply_of (f_lift r) = Ordinary (reply_of nobody r).
Proof. destruct r; auto. Qed.

Notation next o := (match o with FParse _ M b => OpParse M b | FFinish M => OpFinish M end).

(** One step of the comparison. *)
Lemma f_op_alike o (x : fapi tk) a : alike x a ->
  (forall M, o = FFinish M -> f_null x = false) ->
  (f_op E g yerr o x = f_lift (do_op E g yerr (next o) a)) \/
  (exists M b y, o = FParse false M b /\ f_op E g yerr o x = FRuntime e_handle y /\ alike y a).
Proof.
  intros Hx Hn. destruct o as [ok M b|M].
  - destruct ok; [left; apply alike_parse_ok; auto|].
    destruct (M b) as [bytes|] eqn:HM.
    + destruct (a_reset a) eqn:Hr.
      * destruct (alike_parse_fail E g yerr M b HM Hx Hr) as (y & Hy & Hal & _). right. exists M, b, y; auto.
      * destruct Hx as [->|(_ & _ & Hr' & _)]; [|congruence]. left. apply f_parse_cont; auto.
    + left. simpl. unfold f_parse, parse. rewrite HM. reflexivity.
  - left. destruct Hx as [->|(Hn' & _)]; [reflexivity|]. rewrite (Hn M) in Hn'; [discriminate|auto].
Qed.

Definition last_oom (rs : list freply) : Prop := exists t l w r, rs = (r ++ [OutOfMemory t l w])%list.

Definition no_finish_after (os : list fop) (x : fapi tk) : Prop :=
  forall before M after, os = (before ++ FFinish M :: after)%list ->
    List.length (freplies E g yerr before x) = List.length before -> ~ last_oom (freplies E g yerr before x).

Lemma no_trace os : forall (x : fapi tk) a, alike x a ->
  (f_null x = true -> forall M r, os <> FFinish M :: r) ->
  no_finish_after os x ->
  ordinary (freplies E g yerr os x) = replies nobody E g yerr (served os (freplies E g yerr os x)) a.
Proof.
  induction os as [|o os IH]; intros x a Hx Hn Hf; auto.
  assert (Hn' : forall M, o = FFinish M -> f_null x = false).
  { intros M ->. destruct (f_null x); auto. exfalso. eapply Hn; eauto. }
  assert (Hstep : forall y, (f_op E g yerr o x = FOk y \/ (exists e, f_op E g yerr o x = FThrow e y) \/ exists t, f_op E g yerr o x = FRuntime t y) ->
                  no_finish_after os y).
  { intros y Hy before M after He Hlen Hlast. apply (Hf (o :: before) M after); [simpl; congruence| |].
    - cbn [freplies]. destruct Hy as [Hy|[[e Hy]|[t Hy]]]; rewrite Hy; simpl; congruence.
    - destruct Hlast as (t & l & w & r & Hl). unfold last_oom. cbn [freplies].
      destruct Hy as [Hy|[[e Hy]|[t' Hy]]]; rewrite Hy, Hl; eexists _, _, _, (_ :: r); reflexivity. }
  destruct (@f_op_alike o x a Hx Hn') as [Ho|(M & b & y & -> & Ho & Hy)].
  - cbn [freplies]. rewrite Ho, freply_lift. cbn [ordinary served].
    assert (Hr : forall rest, (match Ordinary (reply_of nobody (do_op E g yerr (next o) a)) with
      | OutOfMemory _ _ _ => served os rest | _ => next o :: served os rest end) = next o :: served os rest) by auto.
    cbn [replies]. f_equal.
    destruct (do_op E g yerr (next o) a) as [q|e q| |u|] eqn:Hd; simpl; auto.
    + apply IH; [left; auto|discriminate|]. apply Hstep; auto.
    + apply IH; [left; auto|discriminate|]. apply Hstep; eauto.
  - cbn [freplies]. rewrite Ho. cbn [freply_of ordinary served]. apply IH; auto; [|apply Hstep; eauto].
    intros Hnull M' r ->. apply (Hf [FParse false M b] M' r); [reflexivity| |].
    + cbn [freplies]. rewrite Ho. reflexivity.
    + cbn [freplies]. rewrite Ho. exists e_handle, (past (f_a y)), (view_of (m_root (a_m (f_a y)))), []. reflexivity.
Qed.

(** The state after calls none of which ends in undefined behaviour. *)
Fixpoint f_ops (os : list fop) (x : fapi tk) : option (fapi tk) :=
  match os with
  | [] => Some x
  | o :: r =>
      match f_op E g yerr o x with
      | FOk y | FThrow _ y | FRuntime _ y => f_ops r y
      | _ => None
      end
  end.

Lemma tracked os : forall (x : fapi tk) a y, alike x a -> f_ops os x = Some y ->
  exists a', alike y a' /\
    a_reset a' = new_document (a_reset a) (served os (freplies E g yerr os x)) (ordinary (freplies E g yerr os x)).
Proof.
  induction os as [|o os IH]; intros x a y Hx H; [inversion H; subst; eauto|].
  cbn [f_ops] in H.
  assert (Hn' : forall M, o = FFinish M -> f_null x = false).
  { intros M ->. destruct (f_null x) eqn:Hn; auto. unfold f_op, f_finish in H. rewrite Hn in H. discriminate. }
  destruct (@f_op_alike o x a Hx Hn') as [Ho|(M & b & z & -> & Ho & Hy)].
  - cbn [freplies]. rewrite Ho, freply_lift in *. cbn [ordinary served].
    pose proof (op_reset (next o) a) as Hr.
    destruct (do_op E g yerr (next o) a) as [q|e q| |u|] eqn:Hd; cbn [f_lift] in H |- *; try discriminate.
    + destruct (IH (whole q) q y) as (a' & Ha' & Hb); [left; auto|auto|].
      exists a'. split; auto. rewrite Hb, Hr. destruct o; auto.
    + destruct (IH (whole q) q y) as (a' & Ha' & Hb); [left; auto|auto|].
      exists a'. split; auto. rewrite Hb, Hr. destruct o; auto.
  - cbn [freplies]. rewrite Ho in *. cbn [freply_of ordinary served]. apply IH; auto.
Qed.
End Alloc.

(** parse() throws std::runtime_error exactly if the allocation fails and the call begins
    a new document: not for the first document of a Parser (its underlying parser was
    allocated by the constructor), and not in the middle of a document. *)
Lemma c42_when : forall (tk : tokenizer) E g yerr p l (os : list fop) x y ok M b bytes,
  f_new tk g true p l = Some x -> f_ops E g yerr os x = Some y -> M b = Some bytes ->
  let rs := freplies E g yerr os x in
  (exists t z, f_op E g yerr (FParse ok M b) y = FRuntime t z) <->
  ok = false /\ new_document false (served os rs) (ordinary rs) = true.
Proof.
  intros tk E g yerr p l os x y ok M b bytes Hx Hy HM rs. inversion Hx; subst x.
  destruct (@tracked tk E g yerr os (whole (start tk g p l)) (start tk g p l) y) as (a & Ha & Hr); [left; auto|auto|].
  cbn [a_reset start] in Hr. fold rs in Hr. rewrite <- Hr. split.
  - intros (t & z & H). apply f_parse_runtime in H. destruct H as (H1 & H2 & _). split; auto.
    rewrite <- (alike_reset Ha). auto.
  - intros [-> H]. destruct (alike_parse_fail E g yerr M b HM Ha H) as (z & Hz & _). exists e_handle, z. exact Hz.
Qed.

(** It has the library's text; no callback was called and no parser object changed. *)
Lemma c42_nothing_changed : forall (tk : tokenizer) E g yerr o (x y : fapi tk) t,
  f_op E g yerr o x = FRuntime t y ->
  t = "Can not allocate YAJL handle" /\
  past (f_a y) = past (f_a x) /\ m_root (a_m (f_a y)) = m_root (a_m (f_a x)).
Proof.
  intros tk E g yerr o x y t H. destruct o as [ok M b|M].
  - apply f_parse_runtime in H. destruct H as (_ & _ & _ & Ht & _ & _ & Hp & Hl). auto.
  - unfold f_op, f_finish in H. destruct (f_null x); [discriminate|].
    destruct (finish E g yerr M (f_a x)); discriminate.
Qed.

(** Later calls behave as if the failed ones had not been made - the replies to the others
    are the replies to them alone - unless finish() is called directly after a failed one. *)
Lemma c42_no_trace : forall (tk : tokenizer) E g yerr p l (os : list fop) x,
  f_new tk g true p l = Some x ->
  (forall before M after, os = (before ++ FFinish M :: after)%list ->
     List.length (freplies E g yerr before x) = List.length before ->
     ~ exists t l' w rs, freplies E g yerr before x = (rs ++ [OutOfMemory t l' w])%list) ->
  let rs := freplies E g yerr os x in
  ordinary rs = replies (fun _ => false) E g yerr (served os rs) (start tk g p l).
Proof.
  intros tk E g yerr p l os x Hx H. inversion Hx; subst. apply no_trace; [left; auto|discriminate|exact H].
Qed.

(** finish() directly after a failed call uses the underlying parser that is not there (the
    header says that the Parser must not be used after such an exception). *)
Lemma c42_finish_unusable : forall (tk : tokenizer) E g yerr ok M b (x y : fapi tk) t M',
  f_op E g yerr (FParse ok M b) x = FRuntime t y ->
  f_op E g yerr (FFinish M') y = @FUB tk FNullHandle.
Proof.
  intros tk E g yerr ok M b x y t M' H. apply f_parse_runtime in H. destruct H as (_ & _ & _ & _ & Hn & _).
  unfold f_op, f_finish. rewrite Hn. reflexivity.
Qed.
