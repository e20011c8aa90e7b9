(** Property theorems, part 11: errors of finish() (C23, C26). *)

From Verif Require Import Spec Model Infra Total Safe Refine Main Api ApiProofs History ApiFacts
  Outcome Docs1 Docs3.
Local Open Scope string_scope.
Set Implicit Arguments.

(** finish(), after any calls of parse() and finish(), failed or not: with live buffers
    and no Union as array element it returns or throws ParsingError. *)
Lemma c23_finish_only_parsing_error : forall (tk : tokenizer) E g yerr s l (os : list op) (a : api tk) M,
  no_arr_uni s = true -> do_ops E g yerr os (start tk g (mk s) l) = AOk a ->
  (forall M0 b bytes, last_buffer os = Some (M0, b) -> M0 b = Some bytes ->
     exists now, M b = Some now /\ List.length bytes <= List.length now) ->
  match Api.finish E g yerr M a with
  | AOk _ | AThrow _ _ => True
  | _ => False
  end.
Proof.
  intros tk E g yerr s l os a M Hs H Hl.
  pose proof (@ops_safe tk E g yerr s os Hs _ (m_ok_new tk g s l)) as X. rewrite H in X.
  pose proof (@c27_live_buffer_safe tk E g yerr os (mk s) l M a H Hl) as Y.
  pose proof (@op_not_term tk E g yerr (OpFinish M) a) as Z.
  pose proof (@c01_calls_terminate tk E g yerr (OpFinish M) a) as F. cbn [do_op] in Z, F.
  pose proof (@ops_safe tk E g yerr s [OpFinish M] Hs a X) as W. cbn [do_ops do_op] in W.
  destruct (Api.finish E g yerr M a) as [q|x q| |u|]; auto. destruct u; congruence.
Qed.

(** ** C26: the text of a ParsingError thrown by finish() *)
Section LiveErr.
Variable tk : tokenizer.
Variables (E : env) (g : nat) (yerr : list ascii -> string).

Definition live_err (a : api tk) : Prop := forall st, a_h a = HLive tk st -> a_err a = "".

Lemma live_err_after r y (a q : api tk) : a_err a = "" ->
  after r y a = YOk q \/ after r y a = YErr q -> live_err q.
Proof.
  intros He. unfold after. destruct r as [m|e m|u|]; [destruct y as [st|]|..]; intros [H|H]; inversion H; subst;
    intros st' Hst; simpl in *; try discriminate; auto.
Qed.

Lemma throw_same M (a a' : api tk) x : throw_parsing_error yerr M a = AThrow x a' -> a' = a /\ pe_sj x = a_err a.
Proof. intros H. apply throw_m in H. auto. Qed.

Lemma live_err_op o (a a' : api tk) : api_inv a -> live_err a ->
  (do_op E g yerr o a = AOk a' \/ exists x, do_op E g yerr o a = AThrow x a') -> live_err a'.
Proof.
  intros Hi Ha. destruct o as [M b|M]; cbn [do_op].
  - destruct (M b) as [bs|] eqn:Hb; [|unfold parse; rewrite Hb; intros [H|[x H]]; discriminate].
    unfold parse. rewrite Hb.
    set (a1 := mkApi (a_m a) (a_h a) (Some (b, List.length bs)) (a_reset a) (a_err a)).
    assert (Hi1 : api_inv a1) by exact Hi. destruct (api_inv_reset Hi1) as [He [st Hst]].
    rewrite (feed_run E g bs _ Hst).
    set (r := after _ _ _). destruct r as [q|q| |u|] eqn:Hr; cbn [lift_y]; intros [H|[x H]]; try discriminate.
    + inversion H; subst. eapply live_err_after; [exact He|left; exact Hr].
    + exfalso; eapply throw_not_ok; eauto.
    + apply throw_same in H. destruct H as [-> _]. assert (K : live_err q) by (eapply live_err_after; [exact He|right; exact Hr]).
      exact K.
  - unfold Api.finish. destruct (a_h (with_reset a true)) as [st|] eqn:Hh.
    + rewrite (complete_run E g _ Hh). set (r := after _ _ _).
      assert (He : a_err (with_reset a true) = "") by (apply (Ha st); exact Hh).
      destruct r as [q|q| |u|] eqn:Hr; cbn [lift_y]; intros [H|[x H]]; try discriminate.
      * destruct (empty_stack (a_m q)); inversion H; subst. eapply live_err_after; [exact He|left; exact Hr].
      * destruct (empty_stack (a_m q)); inversion H; subst. eapply live_err_after; [exact He|left; exact Hr].
      * exfalso; eapply throw_not_ok; eauto.
      * apply throw_same in H. destruct H as [-> _]. eapply live_err_after; [exact He|right; exact Hr].
    + unfold complete. rewrite Hh. cbn [lift_y]. intros [H|[x H]]; [exfalso; eapply throw_not_ok; eauto|].
      apply throw_same in H. destruct H as [-> _]. intros st Hst. rewrite Hh in Hst. discriminate.
Qed.

Lemma live_err_ops os : forall a a' : api tk, api_inv a -> live_err a -> do_ops E g yerr os a = AOk a' -> live_err a'.
Proof.
  induction os as [|o os IH]; intros a a' Hi Ha H; cbn [do_ops] in H; [inversion H; subst; auto|].
  destruct (do_op E g yerr o a) as [q|x q| |u|] eqn:Ho; try discriminate.
  - apply (IH q a'); auto.
    + apply (@api_inv_ops tk E g yerr [o] a q Hi). cbn [do_ops]. rewrite Ho. reflexivity.
    + eapply live_err_op; eauto.
  - apply (IH q a'); auto.
    + apply (@api_inv_ops tk E g yerr [o] a q Hi). cbn [do_ops]. rewrite Ho. reflexivity.
    + eapply live_err_op; eauto.
Qed.
End LiveErr.

(** finish() anywhere in any history, unless parse() or finish() failed before (then see
    C25): the error comes from the tokens the end of the text reports; or the underlying
    parser rejects the text as incomplete (own text empty); or a parser has not ended. *)
Lemma c26_finish_error : forall (tk : tokenizer) E g yerr (os : list op) p l M (a : api tk) st x a',
  do_ops E g yerr os (start tk g p l) = AOk a -> a_h a = HLive tk st ->
  Api.finish E g yerr M a = AThrow x a' ->
  exists ts y, tk_fin tk st = (ts, y) /\
    ((exists m, run E g ts (a_m a) = ROk m /\ y = None /\ a_m a' = m /\ pe_sj x = "") \/
     (exists m, run E g ts (a_m a) = ROk m /\ y <> None /\ m_stack m <> [] /\ a_m a' = m /\ pe_sj x = msg_stack_left) \/
     (exists e m, run E g ts (a_m a) = RThrow e m /\ a_m a' = m /\ pe_sj x = caught e)).
Proof.
  intros tk E g yerr os p l M a st x a' Ho Hh H.
  assert (He : a_err a = "").
  { refine (@live_err_ops tk E g yerr os (start tk g p l) a _ _ Ho st Hh).
    - apply api_inv_start.
    - intros st' _. reflexivity. }
  exists (fst (tk_fin tk st)), (snd (tk_fin tk st)). split; [destruct (tk_fin tk st); auto|].
  unfold Api.finish in H. rewrite (complete_run E g (with_reset a true) (st := st) Hh) in H.
  unfold after in H. cbn [a_m with_reset] in H.
  destruct (run E g (fst (tk_fin tk st)) (a_m a)) as [m|e m|u|]; try discriminate.
  - destruct (snd (tk_fin tk st)) as [st'|]; cbn [lift_y] in H.
    + cbn [a_m with_h with_m] in H. destruct (empty_stack m) eqn:Es; [discriminate|]. inversion H; subst.
      right. left. exists m. split; [auto|]. split; [discriminate|]. split; [|auto].
      intros Hn. apply empty_stack_iff in Hn. congruence.
    + apply throw_same in H. destruct H as [-> Hx]. left. exists m. rewrite Hx. auto.
  - cbn [lift_y] in H. apply throw_same in H. destruct H as [-> Hx]. right. right. exists e, m. rewrite Hx. auto.
Qed.

(** The underlying parser's part of the error text is made from the bytes given to the
    failing parse() call; *)
Lemma c26_parse_text : forall (tk : tokenizer) E g yerr M b bs (a : api tk) x a',
  M b = Some bs -> parse E g yerr M b a = AThrow x a' -> pe_yajl x = yerr bs.
Proof.
  intros tk E g yerr M b bs a x a' Hb H. unfold parse in H. rewrite Hb in H.
  set (a1 := mkApi (a_m a) (a_h a) (Some (b, List.length bs)) (a_reset a) (a_err a)) in H.
  pose proof (yres_data E g bs (do_reset a1)) as Hd.
  destruct (feed E g bs (do_reset a1)) as [q|q| |u|]; cbn [lift_y] in H; try discriminate.
  destruct Hd as [Hd _]. rewrite data_do_reset in Hd. unfold a1 in Hd. cbn [a_data] in Hd.
  unfold throw_parsing_error in H. cbn [a_data with_reset] in H. rewrite Hd, Hb in H.
  destruct (List.length bs) as [|n] eqn:Hl.
  - destruct bs; [|discriminate]. inversion H; reflexivity.
  - rewrite <- Hl, Nat.leb_refl, firstn_all in H. inversion H; reflexivity.
Qed.

(** for finish(), it is empty if a parser has not ended, and otherwise made from what is
    now in the buffer given to the last parse() call (as many bytes as were given). *)
Lemma c26_finish_text : forall (tk : tokenizer) E g yerr (os : list op) p l M (a : api tk) x a',
  do_ops E g yerr os (start tk g p l) = AOk a -> Api.finish E g yerr M a = AThrow x a' ->
  (pe_yajl x = "" /\ pe_sj x = msg_stack_left) \/
  (last_buffer os = None /\ pe_yajl x = yerr []) \/
  (exists M0 b bytes, last_buffer os = Some (M0, b) /\ M0 b = Some bytes /\
     (forall now, M b = Some now -> pe_yajl x = yerr (firstn (List.length bytes) now)) /\
     (M b = None -> bytes = [] /\ pe_yajl x = yerr [])).
Proof.
  intros tk E g yerr os p l M a x a' Ho H.
  pose proof (@ops_data tk E g yerr os None (start tk g p l) a eq_refl Ho) as Hd.
  fold (last_buffer os) in Hd. unfold Api.finish in H.
  pose proof (@complete_data tk E g (with_reset a true)) as Hc.
  destruct (complete E g (with_reset a true)) as [q|q| |u|]; cbn [lift_y] in H; try discriminate.
  - destruct (empty_stack (a_m q)); inversion H; subst. left. split; reflexivity.
  - right. unfold throw_parsing_error in H. cbn [a_data with_reset] in Hc. rewrite Hc in H.
    destruct (last_buffer os) as [[M0 b]|]; cbn [data_of] in Hd.
    + right. destruct Hd as (bytes & Hb & Hda). rewrite Hda in H. exists M0, b, bytes. split; [auto|]. split; [auto|].
      destruct (List.length bytes) as [|n] eqn:Hl.
      * destruct bytes; [|discriminate]. inversion H; subst. cbn. split; auto.
      * split.
        -- intros now Hn. rewrite Hn in H. destruct (Nat.leb (S n) (List.length now)); inversion H; subst. reflexivity.
        -- intros Hn. rewrite Hn in H. discriminate.
    + left. split; auto. rewrite Hd in H. inversion H; subst. reflexivity.
Qed.

(** ** C16: pop() on one parser of a declaration *)
Lemma unset_one pi : forall p q, get pi p = Some q -> stored q <> None -> forall ro r, get ro p = Some r ->
  exists r', get ro (unset_at p pi) = Some r' /\ stored r' = stored r /\ is_empty r' = is_empty r /\
    (ro = pi -> is_set r' = false) /\ (ro <> pi -> is_set r' = is_set r).
Proof.
  induction pi as [|st pi IH]; intros p q Hq Hs ro r Hr.
  - cbn in Hq. injection Hq as ->. unfold unset_at. cbn [get put].
    destruct (stored q) as [v|] eqn:Qs; [|congruence].
    destruct ro as [|st ro].
    + cbn in *. injection Hr as ->. exists (set_set false r). repeat split; try (destruct r; reflexivity). congruence.
    + cbn [get] in *. assert (Hc : child (set_set false q) st = child q st) by (destruct q; auto). rewrite Hc.
      exists r. repeat split; auto. discriminate.
  - cbn [get] in Hq. destruct (child p st) as [c|] eqn:Hc; [|discriminate].
    rewrite (unset_at_cons p st pi Hc).
    assert (Hf : fits st (unset_at c pi)).
    { eapply fits_same_kind; [exact Hc|]. unfold unset_at. rewrite Hq. destruct (stored q); [|destruct c; simpl; auto].
      eapply put_kind; [exact Hq|destruct q; simpl; auto]. }
    destruct ro as [|st' ro].
    + cbn [get] in *. injection Hr as ->. exists (set_child r st (unset_at c pi)).
      split; [reflexivity|]. split; [destruct r, st; reflexivity|]. split; [destruct r, st; reflexivity|].
      split; [discriminate|]. destruct r, st; reflexivity.
    + cbn [get] in *. destruct (child p st') as [c'|] eqn:Hc'; [|discriminate].
      destruct (step_eq_dec st st') as [<-|Hn].
      * rewrite (child_set_child_eq p st (unset_at c pi) Hc Hf). rewrite Hc in Hc'. injection Hc' as <-.
        destruct (IH c q Hq Hs ro r Hr) as (r' & H1 & H2 & H3 & H4 & H5). exists r'. repeat split; auto; intros K.
        -- apply H4. congruence.
        -- apply H5. congruence.
      * rewrite child_set_child_neq by auto. rewrite Hc'. exists r. repeat split; auto. congruence.
Qed.

(** pop() on the parser object at [pi] below the root: it becomes unset (and get() and
    pop() on it throw); all other parser objects of the declaration keep what isSet(),
    isEmpty() and get() say. *)
Lemma c16_pop_one : forall (tk : tokenizer) (a : api tk) pi q v,
  get pi (m_root (a_m a)) = Some q -> get_value q = Some v ->
  forall ro r, get ro (m_root (a_m a)) = Some r ->
  exists r', get ro (m_root (a_m (user_pop pi a))) = Some r' /\ is_empty r' = is_empty r /\
    (ro = pi -> is_set r' = false /\ get_value r' = None /\ pop_value r' = None) /\
    (ro <> pi -> is_set r' = is_set r /\ get_value r' = get_value r).
Proof.
  intros tk a pi q v Hq Hv ro r Hr. cbn [user_pop a_m m_root].
  assert (Hs : stored q <> None) by (unfold get_value in Hv; destruct (is_set q); congruence).
  destruct (@unset_one pi _ q Hq Hs ro r Hr) as (r' & H1 & H2 & H3 & H4 & H5). exists r'.
  split; [exact H1|]. split; [exact H3|]. unfold pop_value, get_value. split; intros K.
  - rewrite (H4 K). auto.
  - rewrite (H5 K), H2. auto.
Qed.
