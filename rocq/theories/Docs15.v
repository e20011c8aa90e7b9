(** Property theorems, part 15: value types that throw when stored (C43). *)

From Verif Require Import Spec Model Infra Total Safe Refine Main Api ApiProofs Callbacks History ApiFacts DenFacts Closed
  Free Accept Access Typed Outcome Unset Members Docs1 Docs2 Kept.
Local Open Scope string_scope.
Set Implicit Arguments.

(** ** C43 *)

(** What the exception of a value's copy, move or assignment is reported as. *)
Definition reported (e : exn) : string :=
  match e with XStd m => c_str m | XOther => "Unknown exception" end.

(** SArray: the elements before are parsed and stored, this one is parsed, its callbacks
    are invoked; the document then fails with the text of the exception, and no callback
    is invoked any more (neither of later elements nor of the array). *)
Lemma c43_array_throws : forall (tk : tokenizer) g yerr P e cb (a : api tk) M b bufs js1 j js2 vs v x,
  reads g yerr (SArr true e cb) a M b bufs (JArr (js1 ++ j :: js2)) ->
  supported (JArr (js1 ++ j :: js2)) (SArr true e cb) = true -> heedless P e ->
  Forall2 (yields P e) (non_null js1) vs -> j <> JNull -> gives P e j v -> p_store P v = Some x ->
  doc g yerr P M b bufs a =
  Failed (past a ++ flat_map (events P e) (non_null js1) ++ events P e j) (reported x).
Proof.
  intros tk g yerr P e cb a M b bufs js1 j js2 vs v x Hr Hs He Hvs Hj Hg Hx. rewrite (doc_expected P Hr Hs).
  change (den P (JArr (js1 ++ j :: js2)) (SArr true e cb) (past a))
    with (elems P (den P) true e cb (js1 ++ j :: js2) true [] (past a)).
  clear Hr Hs.
  enough (G : forall l vs, Forall2 (yields P e) (non_null js1) vs -> forall empty vals,
    expected (elems P (den P) true e cb (js1 ++ j :: js2) empty vals l) =
    Failed (l ++ flat_map (events P e) (non_null js1) ++ events P e j) (reported x)) by (eapply G; eauto).
  clear vs Hvs a. induction js1 as [|j1 js1 IH]; intros l vs Hvs empty vals.
  - cbn [app non_null filter flat_map]. assert (Hn : is_null j = false) by (destruct j; auto; contradiction).
    rewrite elems_cons by auto. destruct Hg as (w & Hw & Hv).
    rewrite (den_free j l He), Hw. cbn [andthen]. rewrite Hv. unfold storing. rewrite Hx. reflexivity.
  - destruct (is_null j1) eqn:Hn.
    + destruct j1; try discriminate. cbn [app elems]. exact (IH l vs Hvs empty vals).
    + cbn [app]. rewrite elems_cons by auto. unfold non_null in *. cbn [filter] in *. rewrite Hn in *. cbn [negb] in *.
      inversion Hvs as [|? v1 ? vs' ((w & Hw & Hv) & Hst) Hr']; subst.
      rewrite (den_free j1 l He), Hw. cbn [andthen]. rewrite Hv. unfold storing. rewrite Hst. cbn [andthen].
      rewrite (IH (l ++ events P e j1)%list vs' Hr' false (vals ++ [v1])%list). cbn [flat_map].
      rewrite <- !app_assoc. reflexivity.
Qed.

(** SMap: the same (also if the key was there before, and the value would be dropped). *)
Lemma c43_map_throws : forall (tk : tokenizer) g yerr P e cb (a : api tk) M b bufs ps1 k j ps2 vs v x,
  reads g yerr (SMp true e None cb) a M b bufs (JObj (ps1 ++ (k, j) :: ps2)) ->
  supported (JObj (ps1 ++ (k, j) :: ps2)) (SMp true e None cb) = true -> heedless P e -> not_emb e = true ->
  Forall2 (yields P e) (map snd ps1) vs -> gives P e j v -> p_store P v = Some x ->
  doc g yerr P M b bufs a =
  Failed (past a ++ flat_map (events P e) (map snd ps1) ++ events P e j) (reported x).
Proof.
  intros tk g yerr P e cb a M b bufs ps1 k j ps2 vs v x Hr Hs He Hn Hvs Hg Hx. rewrite (doc_expected P Hr Hs).
  rewrite (@den_obj P _ (SMp true e None cb) (past a) I). clear Hr Hs.
  enough (G : forall l vs, Forall2 (yields P e) (map snd ps1) vs -> forall empty kids vals,
    expected (Spec.body P (den P) (ps1 ++ (k, j) :: ps2) (SMp true e None cb) empty kids vals l) =
    Failed (l ++ flat_map (events P e) (map snd ps1) ++ events P e j) (reported x)) by (eapply G; eauto).
  clear vs Hvs a. induction ps1 as [|[k1 j1] ps1 IH]; intros l vs Hvs empty kids vals; cbn [app]; rewrite body_cons; cbn zeta.
  - destruct Hg as (w & Hw & Hv).
    unfold value_of. rewrite (not_emb_embedded _ j Hn), (den_free j l He), Hw.
    cbn [andthen fst snd]. unfold end_map_elem, invoke. cbn [andthen]. unfold pops; cbn [nothing a_pops fold_left].
    rewrite Hv. unfold storing. rewrite Hx. reflexivity.
  - cbn [map snd fst flat_map] in *. inversion Hvs as [|? v1 ? vs' ((w & Hw & Hv) & Hst) Hr]; subst.
    unfold value_of. rewrite (not_emb_embedded _ j1 Hn), (den_free j1 l He), Hw.
    cbn [andthen fst snd]. unfold end_map_elem, invoke. cbn [andthen]. unfold pops; cbn [nothing a_pops fold_left].
    rewrite Hv. unfold storing. rewrite Hst. cbn [andthen]. rewrite (IH _ vs' Hr). rewrite <- !app_assoc. reflexivity.
Qed.

(** SAutoObject: the members are assigned from the last to the first; the exception of the
    first assignment that throws is reported.  ([member_gets P ps mp v]: [v] is the value
    of the member in the document, or its default value.) *)
Lemma c43_auto_throws : forall (tk : tokenizer) g yerr P ms ign cb (a : api tk) M b bufs ps i mp v e,
  reads g yerr (SObj OAuto ms ign cb) a M b bufs (JObj ps) ->
  supported (JObj ps) (SObj OAuto ms ign cb) = true ->
  members_free P ms -> named ms -> ps <> [] -> Forall (pair_ok P ms ign) ps ->
  nth_error ms i = Some mp -> member_gets P ps mp v -> p_store P v = Some e ->
  (forall i' mp', i < i' -> nth_error ms i' = Some mp' ->
     exists v', member_gets P ps mp' v' /\ p_store P v' = None) ->
  doc g yerr P M b bufs a =
  Failed (past a ++ flat_map (pair_events P ms) ps) (c_str ("Can not set value: " ++
    match e with XStd m => c_str m | XOther => "unknown exception" end)).
Proof.
  intros tk g yerr P ms ign cb a M b bufs ps i mp v e Hr Hs H1 H2 H3 H4 H5 H6 H7 H8.
  destruct (c10_auto_object Hr Hs H1 H2 H3 H4) as (_ & _ & K). exact (K i mp v e H5 H6 H7 H8).
Qed.

(** SUnion: the exception of the selected member's value (or of its default value, if the
    member is empty) is reported. *)
Lemma c43_union_throws : forall (tk : tokenizer) g yerr P t tm ms (a a' : api tk) M b bufs M' b' bufs' x rest i m c l w v e,
  tm <> "" -> reads g yerr (SUni true t tm ms None) a M b bufs (JObj ((tm, JSc x) :: rest)) ->
  supported (JObj ((tm, JSc x) :: rest)) (SUni true t tm ms None) = true ->
  ty_of x = t -> index_of x ms = Some i -> nth_error ms i = Some (m, c) -> object_like c = true ->
  reads g yerr c a' M' b' bufs' (JObj rest) -> past a' = past a ->
  doc g yerr P M' b' bufs' a' = Parsed l w ->
  (if v_set w then v_val w = Some v else m_opt m = true /\ m_def m = Some v) -> p_store P v = Some e ->
  doc g yerr P M b bufs a = Failed l (c_str ("Can not set value: " ++
    match e with XStd m => c_str m | XOther => "unknown exception" end)).
Proof.
  intros tk g yerr P t tm ms a a' M b bufs M' b' bufs' x rest i m c l w v e H1 H2 H3 H4 H5 H6 H7 H8 H9 H10 H11 H12.
  pose proof (c17_union_selects P H1 H2 H3 H4 H5 H6 H7 H8 H9) as K. rewrite H10 in K. destruct K as (_ & _ & _ & K & _).
  specialize (K v eq_refl eq_refl H11). rewrite H12 in K. exact K.
Qed.

(** [used_by yerr ok s l g a]: [a] is a Parser over a parser object declared as [s], after
    any use (as in C38) by programs in which storing [v] throws unless [ok v].  [l]: the
    callback invocations before. *)
Inductive used_by (tk : tokenizer) (yerr : list ascii -> string) (ok : value -> Prop)
  : schema -> list event -> nat -> api tk -> Prop :=
| ub_new s l g : used_by yerr ok s l g (start tk g (mk s) l)
| ub_call s l g a E o a' : used_by yerr ok s l g a -> (forall v, e_store E v = None -> ok v) ->
    (do_op E g yerr o a = AOk a' \/ exists x, do_op E g yerr o a = AThrow x a') ->
    used_by yerr ok s l g a'
| ub_pop s l g a rel : used_by yerr ok s l g a -> used_by yerr ok s l g (user_pop rel a)
| ub_again s l g a g' : used_by yerr ok s l g a ->
    used_by yerr ok s l g' (start tk g' (m_root (a_m a)) (past a))
| ub_callback s l g a w pi c : used_by yerr ok s l g a ->
    used_by yerr ok s l g (user_set_callback w pi c a).

Lemma set_callback_sane ok w c p : sane ok p -> sane ok (set_callback w c p).
Proof.
  intros H. destruct w, p; simpl; try exact H;
    try (eapply sane_same; [exact H|exact (sane_own H)|intros []; reflexivity]).
  all: try (destruct k; eapply sane_same; [exact H|exact (sane_own H)|intros []; reflexivity]).
Qed.

Lemma used_by_sane tk yerr ok s l g (a : api tk) : defaults_fine ok s -> used_by yerr ok s l g a -> snd_ ok l (a_m a).
Proof.
  intros Hg Hu. induction Hu as [s l g|s l g a E o a' _ IH HE Ho|s l g a rel _ IH|s l g a g' _ IH|s l g a w pi c _ IH];
    try specialize (IH Hg).
  - split; [|exists []; split; [rewrite app_nil_r; reflexivity|constructor]].
    simpl. apply sane_set_disp, sane_mk; auto.
  - pose proof (@keep_op tk g yerr E (snd_ ok l)) as K.
    assert (K1 : forall m, snd_ ok l m -> snd_ ok l (dispatcher_reset m)) by (intros m H; exact H).
    assert (K2 : forall ts m, snd_ ok l m -> match run E g ts m with ROk m' | RThrow _ m' => snd_ ok l m' | _ => True end)
      by (intros ts m H; exact (@oks_run ok E g HE l ts m H)).
    specialize (K K1 K2 o a IH). destruct Ho as [Ho|[x Ho]]; rewrite Ho in K; exact K.
  - destruct IH as [IH1 IH2]. split; [|exact IH2]. apply sane_unset_at; auto.
  - destruct IH as [IH1 IH2]. split; [|exact IH2]. simpl. apply sane_set_disp; auto.
  - destruct IH as [IH1 IH2]. split; [|exact IH2]. simpl. unfold set_callback_at.
    destruct (get pi (m_root (a_m a))) as [q|] eqn:Hq; auto.
    eapply sane_put; eauto. apply set_callback_sane. eapply sane_get; eauto.
Qed.

(** After any use, failing or not: what get() returns, of any parser of the declaration,
    contains only values that may be stored; so do the values told to callbacks.  (The
    same holds of the default values in the declaration by hypothesis, [defaults_fine].) *)
Lemma c43_kept : forall (tk : tokenizer) yerr (ok : value -> Prop) s l g (a : api tk),
  defaults_fine ok s -> used_by yerr ok s l g a ->
  (forall pi p v, get pi (m_root (a_m a)) = Some p -> get_value p = Some v -> all_kept ok v) /\
  exists l', past a = (l ++ l')%list /\ (forall c v, In (Ev c (OVal v)) l' -> all_kept ok v).
Proof.
  intros tk yerr ok s l g a Hg Hu. destruct (used_by_sane Hg Hu) as [H1 (l' & H2 & H3)]. split.
  - intros pi p v Hp Hv. exact (sane_value (sane_get _ H1 Hp) Hv).
  - exists l'. split; [exact H2|]. intros c v Hin. rewrite Forall_forall in H3. exact (H3 _ Hin).
Qed.
