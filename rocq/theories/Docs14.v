(** Property theorems, part 14: pop() inside callbacks (C16). *)

From Verif Require Import Spec Model Infra Total Safe Refine Main Api Log Pops.
Local Open Scope string_scope.
Set Implicit Arguments.

(** The declaration of the parser at [pi] in a declaration. *)
Fixpoint declared_at (pi : path) (s : schema) : option schema :=
  match pi with
  | [] => Some s
  | Elem :: r => match s with SArr _ e _ | SMp _ e _ _ => declared_at r e | _ => None end
  | Mem n :: r =>
      match s with
      | SObj _ ms _ _ | SUni _ _ _ ms _ =>
          match nth_error ms n with Some mp => declared_at r (snd mp) | None => None end
      | _ => None
      end
  | Ign :: _ => None
  end.

(** Parsers with pop(), except unions. *)
Definition poppable (s : schema) : bool :=
  match s with
  | SVal _ _ | SArr true _ _ | SMp true _ _ _ | SObj OAuto _ _ _ | SObj OCustom _ _ _ => true
  | _ => false
  end.

(** No embedded unions. *)
Fixpoint standalone (s : schema) : bool :=
  match s with
  | SVal _ _ | SIgn => true
  | SArr _ e _ | SMp _ e _ _ => standalone e
  | SObj _ ms _ _ => forallb (fun mp => standalone (snd mp)) ms
  | SUni _ _ tm ms _ => negb (String.eqb tm "") && forallb (fun mp => standalone (snd mp)) ms
  end.

Lemma forallb_nth A (f : A -> bool) l n x : forallb f l = true -> nth_error l n = Some x -> f x = true.
Proof. intros H Hn. rewrite forallb_forall in H. apply H. eapply nth_error_In; eauto. Qed.

Lemma standalone_get sigma : forall T p, standalone (schema_of T) = true -> get sigma T = Some p ->
  tm_of p <> Some "".
Proof.
  induction sigma as [|st sigma IH]; intros T p Hs Hg.
  - cbn in Hg. inversion Hg; subst. destruct p; simpl in *; try discriminate.
    apply andb_true_iff in Hs. destruct Hs as [Hs _]. destruct (String.eqb tm "") eqn:Ht; [discriminate|].
    apply String.eqb_neq in Ht. congruence.
  - cbn [get] in Hg. destruct (child T st) as [d|] eqn:Hd; [|discriminate]. eapply IH; [|exact Hg].
    destruct T, st; cbn [child] in Hd; try discriminate; simpl in Hs.
    + inversion Hd; subst; auto.
    + inversion Hd; subst; auto.
    + destruct (nth_error ms n) as [mp|] eqn:Hn; [|discriminate]. inversion Hd; subst.
      exact (forallb_nth _ _ _ Hs (map_nth_error (fun mp => (fst mp, schema_of (snd mp))) n ms Hn)).
    + inversion Hd; subst; auto.
    + apply andb_true_iff in Hs. destruct Hs as [_ Hs]. destruct (nth_error ms n) as [mp|] eqn:Hn; [|discriminate]. inversion Hd; subst.
      exact (forallb_nth _ _ _ Hs (map_nth_error (fun mp => (fst mp, schema_of (snd mp))) n ms Hn)).
    + inversion Hd; subst; auto.
Qed.

Lemma declared_get pi : forall T d, declared_at pi (schema_of T) = Some d ->
  exists p, get pi T = Some p /\ schema_of p = d.
Proof.
  induction pi as [|st pi IH]; intros T d H; cbn [declared_at] in H.
  - inversion H; subst. exists T; auto.
  - cbn [get]. destruct st as [|n|]; try discriminate.
    + destruct T; cbn [schema_of] in H; try discriminate; cbn [child]; auto.
    + destruct T; cbn [schema_of] in H; try discriminate; cbn [child];
        rewrite nth_error_map in H; destruct (nth_error ms n) as [mp|]; cbn [option_map snd] in *; try discriminate; auto.
Qed.

(** A callback [c] that pops the parser at [pi], which it knows by a captured reference,
    whenever it is called; the library handles a token, accepted or not, in whatever
    state; [c] is the last callback that it calls for it: then this parser is unset
    afterwards - nothing that the library does after the callback sets it again. *)
Lemma c16_callback_pop : forall E g (m m' : mstate) t pi d c evs o,
  standalone (schema_of (m_root m)) = true ->
  declared_at pi (schema_of (m_root m)) = Some d -> poppable d = true ->
  (forall l T a, In pi (co_away (e_cb E c l T a))) ->
  (dispatch E g t m = ROk m' \/ exists e, dispatch E g t m = RThrow e m') ->
  m_log m' = (m_log m ++ evs ++ [Ev c o])%list ->
  exists p, get pi (m_root m') = Some p /\ is_set p = false /\ get_value p = None /\ pop_value p = None.
Proof.
  intros E g m m' t pi d c evs o Hs Hd Hp Hc Hr Hl.
  destruct (declared_get _ _ Hd) as (p0 & Hp0 & Hd0).
  assert (G : good pi (m_root m)).
  { split; [|intros sigma p Hg; eapply standalone_get; eauto].
    exists p0. split; auto. subst d.
    destruct p0; simpl in *; split; auto; try discriminate; try (destruct store; discriminate);
      destruct k; discriminate. }
  pose proof (@exec_fine E g pi c Hc (fuel_for m) (CDisp t) m G) as F. fold (dispatch E g t m) in F.
  assert (F' : good pi (m_root m') /\ exists l, m_log m' = (m_log m ++ l)%list /\
     (forall l0 o, l = (l0 ++ [Ev c o])%list -> off pi (m_root m'))).
  { destruct Hr as [Hr|[e Hr]]; rewrite Hr in F; cbn [fine] in F; destruct F as (F1 & l & F2 & F3 & _); eauto. }
  destruct F' as ([(p & Hp' & _) _] & l & F2 & F3). rewrite Hl in F2. apply app_inv_head in F2. subst l.
  assert (Ho : is_set p = false) by (eapply F3; eauto).
  exists p. split; auto. unfold pop_value, get_value. rewrite Ho. auto.
Qed.
