(** Property theorems, part 7 (C37), with their proofs. *)

From Verif Require Import Spec Model Infra Total Safe Refine Main Api ApiProofs History Depth
  Docs1 Unset.
Local Open Scope string_scope.
Set Implicit Arguments.

(** ** C37 *)

(** How deep a declaration is nested; the part of an object or union that skips
    unknown members counts as one level. *)
Fixpoint levels (s : schema) : nat :=
  match s with
  | SVal _ _ | SIgn => 1
  | SArr _ e _ | SMp _ e _ _ => 1 + levels e
  | SObj _ ms _ _ | SUni _ _ _ ms _ =>
      1 + fold_right (fun mp n => Nat.max (levels (snd mp)) n) 1 ms
  end.

Lemma fold_max l : forall n, fold_right Nat.max n l = Nat.max n (list_max l).
Proof. unfold list_max. induction l as [|x l IH]; intros n; simpl; [lia|]. rewrite IH. lia. Qed.

Lemma fold_levels ms : Forall (fun mp : mspec * schema => height (mk (snd mp)) = levels (snd mp)) ms ->
  list_max (1 :: map (fun mp => height (snd mp)) (map (fun mp => (fst mp, mk (snd mp))) ms)) =
  fold_right (fun mp n => Nat.max (levels (snd mp)) n) 1 ms.
Proof.
  intros H. rewrite map_map. cbn [snd]. match goal with |- list_max (1 :: ?l) = _ => change (list_max (1 :: l)) with (Nat.max 1 (list_max l)) end.
  rewrite <- (fold_max _ 1). induction H as [|mp r Hq _ IH]; simpl; auto.
Qed.

Lemma height_levels s : height (mk s) = levels s.
Proof.
  induction s as [| | | k ms ign cb IH | st t tm ms cb IH |] using schema_ind'; cbn [mk height levels]; auto.
  - rewrite fold_levels; auto.
  - rewrite fold_levels; auto.
Qed.

Section Bound.
Variable tk : tokenizer.
Variable E : env.
Variable g : nat.
Variable yerr : list ascii -> string.

Definition tame (s : schema) (m : mstate) : Prop :=
  inv g s m /\ nested (m_stack m) /\ height (m_root m) = levels s.

Lemma tame_reset s m : tame s m -> tame s (mkS (m_root m) [[]] (m_log m)).
Proof.
  intros (H1 & H2 & H3). split; [apply (inv_reset H1)|]. split; [exact I|exact H3].
Qed.

Lemma tame_run s ts m : no_arr_uni s = true -> tame s m ->
  match run E g ts m with ROk m' | RThrow _ m' => tame s m' | _ => True end.
Proof.
  intros Hs (H1 & H2 & H3). pose proof (@run_safe g E s Hs ts m H1) as Hsafe.
  pose proof (@run_nested E g ts m H2) as Hn. unfold safe in Hsafe. unfold cpost in Hn.
  destruct (run E g ts m) as [m'|e m'|u|]; auto; destruct Hsafe as [K1 K2]; split; auto; split; auto;
    rewrite <- (le_height K2); auto.
Qed.

Lemma tame_start s l : tame s (a_m (start tk g (mk s) l)).
Proof.
  split; [apply m_ok_new|]. split; [exact I|]. simpl. rewrite <- height_levels. apply height_set_disp.
Qed.

Lemma tame_ops s os l a : no_arr_uni s = true ->
  do_ops E g yerr os (start tk g (mk s) l) = AOk a -> tame s (a_m a).
Proof.
  intros Hs. apply keep_ops with (J := tame s).
  - apply tame_reset.
  - intros ts m. apply tame_run; auto.
  - apply tame_start.
Qed.

End Bound.

(** Whatever has been parsed before, and at any point inside the next text: the
    dispatcher's stack is never higher than the declaration is deep, however deep and
    long the text is. *)
Lemma c37_stack_bound : forall (tk : tokenizer) (E : env) g (yerr : list ascii -> string) s l os (a : api tk) m0 ts m,
  no_arr_uni s = true -> do_ops E g yerr os (start tk g (mk s) l) = AOk a ->
  (m0 = a_m a \/ m0 = dispatcher_reset (a_m a)) ->
  run E g ts m0 = ROk m ->
  List.length (m_stack m) <= levels s.
Proof.
  intros tk E g yerr s l os a m0 ts m Hs Ho Hm0 Hr. pose proof (@tame_ops _ E g yerr s os l _ Hs Ho) as Ht.
  assert (Ht0 : tame g s m0) by (destruct Hm0; subst; auto; apply tame_reset; auto).
  pose proof (tame_run E ts Hs Ht0) as K. rewrite Hr in K. destruct K as (K1 & K2 & <-).
  eapply stack_height; eauto.
Qed.

(** ... and the calls made for one more token, whatever it is, are nested at most
    11 * levels + 7 deep. *)
Lemma c37_recursion_bound : forall (tk : tokenizer) (E : env) g (yerr : list ascii -> string) s l os (a : api tk) m0 ts m t d,
  no_arr_uni s = true -> do_ops E g yerr os (start tk g (mk s) l) = AOk a ->
  (m0 = a_m a \/ m0 = dispatcher_reset (a_m a)) ->
  run E g ts m0 = ROk m -> 11 * levels s + 7 <= d ->
  exec E g d (CDisp t) m <> RFuel.
Proof.
  intros tk E g yerr s l os a m0 ts m t d Hs Ho Hm0 Hr Hd. pose proof (@tame_ops _ E g yerr s os l _ Hs Ho) as Ht.
  assert (Ht0 : tame g s m0) by (destruct Hm0; subst; auto; apply tame_reset; auto).
  pose proof (tame_run E ts Hs Ht0) as K. rewrite Hr in K. destruct K as (K1 & K2 & K3).
  pose proof (stack_height K1 K2) as Hl. rewrite K3 in Hl.
  destruct (c01_token_terminates E g t m) as (r & Hr1 & Hr2). rewrite (Hr2 d); auto. lia.
Qed.
