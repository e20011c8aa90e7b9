(** What moving does to the state of a parser (as opposed to its pointers): nothing
    that can be observed.  And: a parser object that was constructed, moved and
    assigned in any way, but not used, is the one [Model.mk] describes. *)

From Verif Require Import Spec Model Infra Total Safe Refine Main Access Move.
Local Open Scope string_scope.
Set Implicit Arguments.

(** The current key of a map (map.h:143) is not moved; it is only used between a key
    and the end of its value. *)
Fixpoint unkey (p : parser) : parser :=
  match p with
  | PVal b t v cb => PVal b t v cb
  | PArr b sd st vals e cb => PArr b sd st vals (unkey e) cb
  | PMap b st _ vals e ecb cb => PMap b st "" vals (unkey e) ecb cb
  | PObj b k v ms ig ign cb => PObj b k v (map (fun mp => (fst mp, unkey (snd mp))) ms) ig ign cb
  | PUni b st v t tm cur ms ig cb =>
      PUni b st v t tm cur (map (fun mp => (fst mp, unkey (snd mp))) ms) ig cb
  | PIgn i => PIgn i
  end.

(** Two states that differ at most in current keys. *)
Definition same_state (p q : parser) : Prop := unkey p = unkey q.

Lemma unkey_mk s : unkey (mk s) = mk s.
Proof.
  induction s as [| | | ? ? ? ? IH | ? ? ? ? ? IH |] using schema_ind'; simpl; auto; f_equal; auto.
  - rewrite map_map. apply map_ext_in. intros mp Hin. rewrite Forall_forall in IH. simpl. rewrite IH; auto.
  - rewrite map_map. apply map_ext_in. intros mp Hin. rewrite Forall_forall in IH. simpl. rewrite IH; auto.
Qed.

Lemma unkey_schema p : schema_of (unkey p) = schema_of p.
Proof.
  induction p as [| | ? ? ? ? ? ? ? IH | ? ? ? ? ? ? ? IH | ? ? ? ? ? ? ? ? ? IH |] using parser_ind';
    simpl; auto; f_equal; auto.
  - rewrite map_map. apply map_ext_in. intros mp Hin. rewrite Forall_forall in IH. simpl. rewrite IH; auto.
  - rewrite map_map. apply map_ext_in. intros mp Hin. rewrite Forall_forall in IH. simpl. rewrite IH; auto.
Qed.

Lemma unkey_view p : view_of (unkey p) = view_of p.
Proof.
  induction p as [| b sd [] vals e IHe cb| b [] key vals e ecb cb IH | b [] v ms ig ign cb IH | b [] v t tm cur ms ig cb IH |] using parser_ind';
    simpl; auto; f_equal; auto;
    rewrite map_map; apply map_ext_in; intros mp Hin; rewrite Forall_forall in IH; simpl; apply IH; auto.
Qed.

Lemma same_state_schema p q : same_state p q -> schema_of p = schema_of q.
Proof. intros H. rewrite <- (unkey_schema p), H. apply unkey_schema. Qed.

Lemma same_state_view p q : same_state p q -> view_of p = view_of q.
Proof. intros H. rewrite <- (unkey_view p), H. apply unkey_view. Qed.

(** ** Moving *)
Definition cslot (rd : place -> parser) (s : slot pobj) : parser :=
  match s with Own x => state rd x | Ref p => rd p end.

Lemma moves_content rd a ms :
  Forall (fun mp => Qs (fun o => forall a, same_state (state rd (move a o)) (state rd o)) (snd mp)) ms ->
  forall i, map (fun mp => (fst mp, unkey (snd mp))) (map (fun mp => (fst mp, cslot rd (snd mp))) (moves a i ms)) =
            map (fun mp => (fst mp, unkey (snd mp))) (map (fun mp => (fst mp, cslot rd (snd mp))) ms).
Proof.
  induction 1 as [|[m s] r Hs _ IH]; intros i; simpl; auto. f_equal; auto.
  destruct s as [x|]; auto. simpl in *. rewrite Hs. auto.
Qed.

Lemma move_state rd o : forall a, same_state (state rd (move a o)) (state rd o).
Proof.
  induction o as [|b sd st vals ptr e cb IH|b st key vals e ecb cb IH|b k v tb ms ig ign cb IH|b st v t tm cur tb ids ms ig cb IH]
    using pobj_ind'; intros a.
  - reflexivity.
  - destruct e as [x|]; unfold same_state; simpl; auto. rewrite (IH (sub a 0)). auto.
  - destruct e as [x|]; unfold same_state; simpl; auto. rewrite (IH (sub a 0)). auto.
  - rewrite move_obj. unfold same_state. simpl. f_equal. apply moves_content; auto.
  - rewrite move_uni. unfold same_state. simpl. f_equal. apply moves_content; auto.
Qed.

Lemma assigns_content rd a ms :
  Forall (fun mp => Qs (fun s => forall a d y, assign a d s = Some y -> same_state (state rd y) (state rd s)) (snd mp)) ms ->
  forall i ds ms', assigns a i ds ms = Some ms' ->
    map (fun mp => (fst mp, unkey (snd mp))) (map (fun mp => (fst mp, cslot rd (snd mp))) ms') =
    map (fun mp => (fst mp, unkey (snd mp))) (map (fun mp => (fst mp, cslot rd (snd mp))) ms).
Proof.
  unfold assigns. induction 1 as [|[m0 s0] r0 Hs _ IH]; intros i [|[d x] ds] ms' H; simpl in H; try discriminate; auto.
  - inversion H; auto.
  - destruct x; discriminate.
  - destruct x as [x|]; [|discriminate]. destruct s0 as [y|]; [|discriminate].
    destruct (assign (sub a i) x y) as [z|] eqn:Ez; [|discriminate].
    destruct (mapi2_members assign a (S i) ds r0) as [r'|] eqn:E; [|discriminate].
    inversion H; subst. simpl. f_equal; eauto. simpl in Hs. rewrite (Hs _ _ _ Ez). auto.
Qed.

Lemma assign_state rd s : forall a d y, assign a d s = Some y -> same_state (state rd y) (state rd s).
Proof.
  induction s as [b t v cb|b sd st vals ptr e cb IH|b st key vals e ecb cb IH|b k v tb ms ig ign cb IH|b st v t tm cur tb ids ms ig cb IH]
    using pobj_ind'; intros a d y;
  destruct d as [b0 t0 v0 cb0|b0 sd0 st0 vals0 ptr0 e0 cb0|b0 st0 key0 vals0 e0 ecb0 cb0|b0 k0 v0 tb0 ms0 ig0' ign0 cb0|b0 st0 v0 t0 tm0 cur0 tb0 ids0 ms0 ig0' cb0];
  try (repeat match goal with e : slot pobj |- _ => destruct e end; simpl; discriminate).
  - simpl. destruct (vtype_eqb t0 t); intros H; inversion H; subst. reflexivity.
  - destruct e as [e|], e0 as [e0|]; simpl; try discriminate.
    destruct (Bool.eqb st0 st); [|discriminate].
    destruct (assign (sub a 0) e0 e) as [w|] eqn:E; [|discriminate]. intros H; inversion H; subst.
    unfold same_state. simpl. rewrite (IH _ _ _ E). auto.
  - destruct e as [e|], e0 as [e0|]; simpl; try discriminate.
    destruct (Bool.eqb st0 st); [|discriminate].
    destruct (assign (sub a 0) e0 e) as [w|] eqn:E; [|discriminate]. intros H; inversion H; subst.
    unfold same_state. simpl. rewrite (IH _ _ _ E). auto.
  - rewrite assign_obj. destruct (okind_eqb k0 k); [|discriminate].
    destruct (assigns a 0 ms0 ms) as [ms'|] eqn:E; [|discriminate].
    intros H; inversion H; subst. unfold same_state. simpl. f_equal. eapply assigns_content; eauto.
  - rewrite assign_uni. destruct (Bool.eqb st0 st && vtype_eqb t0 t); [|discriminate].
    destruct (assigns a 0 ms0 ms) as [ms'|] eqn:E; [|discriminate].
    intros H; inversion H; subst. unfold same_state. simpl. f_equal. eapply assigns_content; eauto.
Qed.

(** ** Parsers that have not been used *)
Definition nowhere : place -> parser := fun _ => PIgn ig0.

(** All members are held by value. *)
Fixpoint no_ref (o : pobj) : bool :=
  match o with
  | XVal _ _ _ _ => true
  | XArr _ _ _ _ _ e _ | XMap _ _ _ _ e _ _ => match e with Own x => no_ref x | Ref _ => false end
  | XObj _ _ _ _ ms _ _ _ | XUni _ _ _ _ _ _ _ _ ms _ _ =>
      forallb (fun mp => match snd mp with Own x => no_ref x | Ref _ => false end) ms
  end.

(** The state (without the value of the object parsers) of a parser as constructed. *)
Fixpoint untouched (o : pobj) : Prop :=
  match o with
  | XVal b t v _ => b = base0 /\ v = VSc (dflt_sc t)
  | XArr b sd st vals _ e _ =>
      b = base0 /\ sd = false /\ vals = [] /\ match e with Own x => untouched x | Ref _ => True end
  | XMap b st key vals e _ _ =>
      b = base0 /\ key = "" /\ vals = [] /\ match e with Own x => untouched x | Ref _ => True end
  | XObj b k v _ ms ig _ _ =>
      b = base0 /\ ig = ig0 /\ v = dflt (state nowhere o) /\
      fold_right (fun mp P => match snd mp with Own x => untouched x | Ref _ => True end /\ P) True ms
  | XUni b st v t tm cur _ _ ms ig cb =>
      b = base0 /\ ig = ig0 /\ cur = 0 /\ v = dflt (state nowhere o) /\
      fold_right (fun mp P => match snd mp with Own x => untouched x | Ref _ => True end /\ P) True ms
  end.

Definition u_ms (ms : list (mspec * slot pobj)) : Prop :=
  fold_right (fun mp P => match snd mp with Own x => untouched x | Ref _ => True end /\ P) True ms.

Lemma dflt_schema p : dflt p = dflt_s (schema_of p).
Proof.
  induction p as [| | | b [] v ms ig ign cb IH | b st v t tm cur ms ig cb IH |] using parser_ind'; simpl; auto.
  - f_equal. rewrite map_map. apply map_ext_in. intros mp Hin. rewrite Forall_forall in IH. simpl. auto.
  - destruct IH; simpl; auto. rewrite H. auto.
Qed.

Lemma content_nowhere rd o : no_ref o = true -> state rd o = state nowhere o.
Proof.
  induction o as [|b sd st vals ptr e cb IH|b st key vals e ecb cb IH|b k v tb ms ig ign cb IH|b st v t tm cur tb ids ms ig cb IH]
    using pobj_ind'; simpl; intros H; auto.
  - destruct e; [|discriminate]. simpl in IH. rewrite IH; auto.
  - destruct e; [|discriminate]. simpl in IH. rewrite IH; auto.
  - f_equal. rewrite forallb_forall in H. apply map_ext_in. intros mp Hin. specialize (H mp Hin).
    rewrite Forall_forall in IH. specialize (IH mp Hin). destruct mp as [m [x|]]; simpl in *; [|discriminate].
    rewrite IH; auto.
  - f_equal. rewrite forallb_forall in H. apply map_ext_in. intros mp Hin. specialize (H mp Hin).
    rewrite Forall_forall in IH. specialize (IH mp Hin). destruct mp as [m [x|]]; simpl in *; [|discriminate].
    rewrite IH; auto.
Qed.

Lemma untouched_mk o : no_ref o = true -> untouched o -> state nowhere o = mk (schema_of (state nowhere o)).
Proof.
  induction o as [|b sd st vals ptr e cb IH|b st key vals e ecb cb IH|b k v tb ms ig ign cb IH|b st v t tm cur tb ids ms ig cb IH]
    using pobj_ind'; simpl; intros H U; auto.
  - destruct U; subst; auto.
  - destruct e; [|discriminate]. destruct U as (-> & -> & -> & U). rewrite <- IH; auto.
  - destruct e; [|discriminate]. destruct U as (-> & -> & -> & U). rewrite <- IH; auto.
  - destruct U as (-> & -> & -> & U). fold (u_ms ms) in U.
    assert (X : forall ms, Forall (fun mp => Qs (fun o => no_ref o = true -> untouched o -> state nowhere o = mk (schema_of (state nowhere o))) (snd mp)) ms ->
        forallb (fun mp => match snd mp with Own x => no_ref x | Ref _ => false end) ms = true -> u_ms ms ->
        map (fun mp : mspec * slot pobj => (fst mp, match snd mp with Own x => state nowhere x | Ref p => nowhere p end)) ms =
        map (fun mp => (fst mp, mk (snd mp)))
            (map (fun mp => (fst mp, schema_of (snd mp)))
               (map (fun mp : mspec * slot pobj => (fst mp, match snd mp with Own x => state nowhere x | Ref p => nowhere p end)) ms))).
    { clear. induction 1 as [|[m s] r Hs _ IHr]; simpl; auto. rewrite andb_true_iff. intros [H1 H2] [U1 U2].
      f_equal; auto. destruct s; [|discriminate]. simpl in Hs. rewrite <- Hs; auto. }
    f_equal; [|apply X; auto].
    exact (dflt_schema (PObj base0 k (VTup []) _ ig0 ign cb)).
  - destruct U as (-> & -> & -> & -> & U). fold (u_ms ms) in U.
    assert (X : forall ms, Forall (fun mp => Qs (fun o => no_ref o = true -> untouched o -> state nowhere o = mk (schema_of (state nowhere o))) (snd mp)) ms ->
        forallb (fun mp => match snd mp with Own x => no_ref x | Ref _ => false end) ms = true -> u_ms ms ->
        map (fun mp : mspec * slot pobj => (fst mp, match snd mp with Own x => state nowhere x | Ref p => nowhere p end)) ms =
        map (fun mp => (fst mp, mk (snd mp)))
            (map (fun mp => (fst mp, schema_of (snd mp)))
               (map (fun mp : mspec * slot pobj => (fst mp, match snd mp with Own x => state nowhere x | Ref p => nowhere p end)) ms))).
    { clear. induction 1 as [|[m s] r Hs _ IHr]; simpl; auto. rewrite andb_true_iff. intros [H1 H2] [U1 U2].
      f_equal; auto. destruct s; [|discriminate]. simpl in Hs. rewrite <- Hs; auto. }
    f_equal; [|apply X; auto].
    exact (dflt_schema (PUni base0 st (VTup []) t tm 0 _ ig0 cb)).
Qed.

(** Values of the classes: equal types have equal value-initialised values. *)
Lemma dflt_unkey p : dflt (unkey p) = dflt p.
Proof. rewrite !dflt_schema, unkey_schema. auto. Qed.

Lemma same_dflt p q : same_state p q -> dflt p = dflt q.
Proof. intros H. rewrite <- (dflt_unkey p), H. apply dflt_unkey. Qed.

Lemma u_moves a ms : Forall (fun mp => Qs (fun o => forall a, untouched o -> untouched (move a o)) (snd mp)) ms ->
  forall i, u_ms ms -> u_ms (moves a i ms).
Proof.
  induction 1 as [|[m s] r Hs _ IH]; intros i; simpl; auto. intros [H1 H2]. split; [|apply IH; auto].
  destruct s; simpl in *; auto.
Qed.

Lemma untouched_move o : forall a, untouched o -> untouched (move a o).
Proof.
  induction o as [|b sd st vals ptr e cb IH|b st key vals e ecb cb IH|b k v tb ms ig ign cb IH|b st v t tm cur tb ids ms ig cb IH]
    using pobj_ind'; intros a U.
  - auto.
  - destruct e; simpl in *; intuition auto.
  - destruct e; simpl in *; intuition auto.
  - pose proof (same_dflt (move_state nowhere (XObj b k v tb ms ig ign cb) a)) as D.
    rewrite move_obj in *. simpl in U. destruct U as (-> & -> & Hv & U).
    split; [|split; [|split]]; auto.
    + rewrite D. exact Hv.
    + apply u_moves; auto.
  - pose proof (same_dflt (move_state nowhere (XUni b st v t tm cur tb ids ms ig cb) a)) as D.
    rewrite move_uni in *. simpl in U. destruct U as (-> & -> & -> & Hv & U).
    split; [|split; [|split; [|split]]]; auto.
    + rewrite D. exact Hv.
    + apply u_moves; auto.
Qed.

Lemma no_ref_move o : forall a, no_ref (move a o) = no_ref o.
Proof.
  assert (X : forall a ms, Forall (fun mp => Qs (fun o => forall a, no_ref (move a o) = no_ref o) (snd mp)) ms ->
    forall i, forallb (fun mp => match snd mp with Own x => no_ref x | Ref _ => false end) (moves a i ms) =
              forallb (fun mp => match snd mp with Own x => no_ref x | Ref _ => false end) ms).
  { induction 1 as [|[m s] r Hs _ IH]; intros i; simpl; auto. f_equal; auto. destruct s; simpl in *; auto. }
  induction o as [|b sd st vals ptr e cb IH|b st key vals e ecb cb IH|b k v tb ms ig ign cb IH|b st v t tm cur tb ids ms ig cb IH]
    using pobj_ind'; intros a.
  - auto.
  - destruct e; simpl in *; auto.
  - destruct e; simpl in *; auto.
  - rewrite move_obj. simpl. auto.
  - rewrite move_uni. simpl. auto.
Qed.

(** *** Assignment *)
Definition no_ref_s (s : slot pobj) : bool := match s with Own x => no_ref x | Ref _ => false end.

Lemma assign_no_ref s : forall a d y, assign a d s = Some y ->
  no_ref d = true /\ no_ref s = true /\ no_ref y = true.
Proof.
  assert (X : forall a ms, Forall (fun mp => Qs (fun s => forall a d y, assign a d s = Some y ->
      no_ref d = true /\ no_ref s = true /\ no_ref y = true) (snd mp)) ms ->
    forall i ds ms', assigns a i ds ms = Some ms' ->
      forallb (fun mp => no_ref_s (snd mp)) ds = true /\ forallb (fun mp => no_ref_s (snd mp)) ms = true /\
      forallb (fun mp => no_ref_s (snd mp)) ms' = true).
  { unfold assigns. induction 1 as [|[m0 s0] r0 Hs _ IH]; intros i [|[d x] ds] ms' H; simpl in H; try discriminate.
    - inversion H; auto.
    - destruct x; discriminate.
    - destruct x as [x|]; [|discriminate]. destruct s0 as [y|]; [|discriminate].
      destruct (assign (sub a i) x y) as [z|] eqn:Ez; [|discriminate].
      destruct (mapi2_members assign a (S i) ds r0) as [r'|] eqn:E; [|discriminate].
      inversion H; subst. simpl in Hs. destruct (Hs _ _ _ Ez) as (H1 & H2 & H3).
      destruct (IH _ _ _ E) as (H4 & H5 & H6). simpl. rewrite H1, H2, H3, H4, H5, H6. auto. }
  induction s as [b t v cb|b sd st vals ptr e cb IH|b st key vals e ecb cb IH|b k v tb ms ig ign cb IH|b st v t tm cur tb ids ms ig cb IH]
    using pobj_ind'; intros a d y;
  destruct d as [b0 t0 v0 cb0|b0 sd0 st0 vals0 ptr0 e0 cb0|b0 st0 key0 vals0 e0 ecb0 cb0|b0 k0 v0 tb0 ms0 ig0' ign0 cb0|b0 st0 v0 t0 tm0 cur0 tb0 ids0 ms0 ig0' cb0];
  try (repeat match goal with e : slot pobj |- _ => destruct e end; simpl; discriminate).
  - simpl. destruct (vtype_eqb t0 t); intros H; inversion H; subst. auto.
  - destruct e as [e|], e0 as [e0|]; simpl; try discriminate.
    destruct (Bool.eqb st0 st); [|discriminate].
    destruct (assign (sub a 0) e0 e) as [w|] eqn:E; [|discriminate]. intros H; inversion H; subst.
    simpl. apply (IH _ _ _ E).
  - destruct e as [e|], e0 as [e0|]; simpl; try discriminate.
    destruct (Bool.eqb st0 st); [|discriminate].
    destruct (assign (sub a 0) e0 e) as [w|] eqn:E; [|discriminate]. intros H; inversion H; subst.
    simpl. apply (IH _ _ _ E).
  - rewrite assign_obj. destruct (okind_eqb k0 k); [|discriminate].
    destruct (assigns a 0 ms0 ms) as [ms'|] eqn:E; [|discriminate].
    intros H; inversion H; subst. simpl. apply (X _ _ IH _ _ _ E).
  - rewrite assign_uni. destruct (Bool.eqb st0 st && vtype_eqb t0 t); [|discriminate].
    destruct (assigns a 0 ms0 ms) as [ms'|] eqn:E; [|discriminate].
    intros H; inversion H; subst. simpl. apply (X _ _ IH _ _ _ E).
Qed.

(** Assignment keeps the class of the destination, and so its initial value. *)
Lemma assign_dflt rd s : forall a d y, assign a d s = Some y -> dflt (state rd y) = dflt (state rd d).
Proof.
  assert (X : forall a ms, Forall (fun mp => Qs (fun s => forall a d y, assign a d s = Some y ->
      dflt (state rd y) = dflt (state rd d)) (snd mp)) ms ->
    forall i ds ms', assigns a i ds ms = Some ms' ->
      map (fun mp => dflt (cslot rd (snd mp))) ms' = map (fun mp => dflt (cslot rd (snd mp))) ds).
  { unfold assigns. induction 1 as [|[m0 s0] r0 Hs _ IH]; intros i [|[d x] ds] ms' H; simpl in H; try discriminate.
    - inversion H; auto.
    - destruct x; discriminate.
    - destruct x as [x|]; [|discriminate]. destruct s0 as [y|]; [|discriminate].
      destruct (assign (sub a i) x y) as [z|] eqn:Ez; [|discriminate].
      destruct (mapi2_members assign a (S i) ds r0) as [r'|] eqn:E; [|discriminate].
      inversion H; subst. simpl in *. rewrite (Hs _ _ _ Ez), (IH _ _ _ E). auto. }
  induction s as [b t v cb|b sd st vals ptr e cb IH|b st key vals e ecb cb IH|b k v tb ms ig ign cb IH|b st v t tm cur tb ids ms ig cb IH]
    using pobj_ind'; intros a d y;
  destruct d as [b0 t0 v0 cb0|b0 sd0 st0 vals0 ptr0 e0 cb0|b0 st0 key0 vals0 e0 ecb0 cb0|b0 k0 v0 tb0 ms0 ig0' ign0 cb0|b0 st0 v0 t0 tm0 cur0 tb0 ids0 ms0 ig0' cb0];
  try (repeat match goal with e : slot pobj |- _ => destruct e end; simpl; discriminate).
  - simpl. destruct (vtype_eqb t0 t) eqn:Q; intros H; inversion H; subst. apply vtype_eqb_eq in Q. subst. auto.
  - destruct e as [e|], e0 as [e0|]; simpl; try discriminate.
    destruct (Bool.eqb st0 st); [|discriminate].
    destruct (assign (sub a 0) e0 e) as [w|] eqn:E; [|discriminate]. intros H; inversion H; subst. auto.
  - destruct e as [e|], e0 as [e0|]; simpl; try discriminate.
    destruct (Bool.eqb st0 st); [|discriminate].
    destruct (assign (sub a 0) e0 e) as [w|] eqn:E; [|discriminate]. intros H; inversion H; subst. auto.
  - rewrite assign_obj. destruct (okind_eqb k0 k) eqn:Q; [|discriminate].
    destruct (assigns a 0 ms0 ms) as [ms'|] eqn:E; [|discriminate].
    intros H; inversion H; subst. pose proof (X _ _ IH _ _ _ E) as Y.
    destruct k, k0; try discriminate; auto. cbn [state dflt]. rewrite !map_map. f_equal. exact Y.
  - rewrite assign_uni. destruct (Bool.eqb st0 st && vtype_eqb t0 t); [|discriminate].
    destruct (assigns a 0 ms0 ms) as [ms'|] eqn:E; [|discriminate].
    intros H; inversion H; subst. pose proof (X _ _ IH _ _ _ E) as Y.
    destruct ms' as [|mp' r'], ms0 as [|mp0 r0]; try discriminate; auto.
    cbn [state dflt map]. cbn [map] in Y. injection Y as Y _. cbn [snd]. f_equal. exact Y.
Qed.

Lemma untouched_assign s : forall a d y, assign a d s = Some y -> untouched d -> untouched s -> untouched y.
Proof.
  assert (X : forall a ms, Forall (fun mp => Qs (fun s => forall a d y, assign a d s = Some y ->
      untouched d -> untouched s -> untouched y) (snd mp)) ms ->
    forall i ds ms', assigns a i ds ms = Some ms' -> u_ms ds -> u_ms ms -> u_ms ms').
  { unfold assigns. induction 1 as [|[m0 s0] r0 Hs _ IH]; intros i [|[d x] ds] ms' H; simpl in H; try discriminate.
    - inversion H; auto.
    - destruct x; discriminate.
    - destruct x as [x|]; [|discriminate]. destruct s0 as [y|]; [|discriminate].
      destruct (assign (sub a i) x y) as [z|] eqn:Ez; [|discriminate].
      destruct (mapi2_members assign a (S i) ds r0) as [r'|] eqn:E; [|discriminate].
      inversion H; subst. simpl in *. intros [H1 H2] [H3 H4]. split; eauto. }
  induction s as [b t v cb|b sd st vals ptr e cb IH|b st key vals e ecb cb IH|b k v tb ms ig ign cb IH|b st v t tm cur tb ids ms ig cb IH]
    using pobj_ind'; intros a d y;
  destruct d as [b0 t0 v0 cb0|b0 sd0 st0 vals0 ptr0 e0 cb0|b0 st0 key0 vals0 e0 ecb0 cb0|b0 k0 v0 tb0 ms0 ig0' ign0 cb0|b0 st0 v0 t0 tm0 cur0 tb0 ids0 ms0 ig0' cb0];
  try (repeat match goal with e : slot pobj |- _ => destruct e end; simpl; discriminate).
  - simpl. destruct (vtype_eqb t0 t); intros H; inversion H; subst. auto.
  - destruct e as [e|], e0 as [e0|]; simpl; try discriminate.
    destruct (Bool.eqb st0 st); [|discriminate].
    destruct (assign (sub a 0) e0 e) as [w|] eqn:E; [|discriminate]. intros H; inversion H; subst.
    simpl. simpl in IH. intuition eauto.
  - destruct e as [e|], e0 as [e0|]; simpl; try discriminate.
    destruct (Bool.eqb st0 st); [|discriminate].
    destruct (assign (sub a 0) e0 e) as [w|] eqn:E; [|discriminate]. intros H; inversion H; subst.
    simpl. simpl in IH. intuition eauto.
  - intros A. pose proof (same_dflt (assign_state nowhere _ _ _ A)) as D. revert A.
    rewrite assign_obj. destruct (okind_eqb k0 k); [|discriminate].
    destruct (assigns a 0 ms0 ms) as [ms'|] eqn:E; [|discriminate].
    intros H; inversion H; subst. intros (_ & _ & _ & U0) (-> & -> & Hv & U).
    split; [|split; [|split]]; auto.
    + rewrite D. exact Hv.
    + eapply (X _ _ IH); eauto.
  - intros A. pose proof (same_dflt (assign_state nowhere _ _ _ A)) as D. revert A.
    rewrite assign_uni. destruct (Bool.eqb st0 st && vtype_eqb t0 t); [|discriminate].
    destruct (assigns a 0 ms0 ms) as [ms'|] eqn:E; [|discriminate].
    intros H; inversion H; subst. intros (_ & _ & _ & _ & U0) (-> & -> & -> & Hv & U).
    split; [|split; [|split; [|split]]]; auto.
    + rewrite D. exact Hv.
    + eapply (X _ _ IH); eauto.
Qed.

(** *** Replacing a sub-parser *)
Lemma dflt_set_kid rd o i c x : kid o i = Some c -> dflt (state rd x) = dflt (state rd c) ->
  dflt (state rd (set_kid o i x)) = dflt (state rd o).
Proof.
  destruct o as [|b sd st vals ptr e cb|b st key vals e ecb cb|b k v tb ms ig ign cb|b st v t tm cur tb ids ms ig cb];
    cbn [kid set_kid]; auto.
  - intros Hk D. destruct (nth_error ms i) as [[m [s|]]|] eqn:E; try discriminate. inversion Hk; subst.
    destruct k; auto. cbn [state dflt]. rewrite !map_map. f_equal.
    revert i E. induction ms as [|[m' s'] r IH]; intros [|i] E; simpl in *; try discriminate.
    + inversion E; subst. simpl. rewrite D. auto.
    + rewrite IH; auto.
  - intros Hk D. destruct (nth_error ms i) as [[m [s|]]|] eqn:E; try discriminate. inversion Hk; subst.
    destruct ms as [|[m' s'] r]; destruct i; simpl in E; try discriminate; auto.
    inversion E; subst. simpl. rewrite D. auto.
Qed.

Lemma untouched_set_kid o i c x : kid o i = Some c -> dflt (state nowhere x) = dflt (state nowhere c) ->
  untouched o -> untouched x -> untouched (set_kid o i x).
Proof.
  intros Hk D U Ux. pose proof (dflt_set_kid nowhere _ _ _ Hk D) as DD.
  destruct o as [|b sd st vals ptr e cb|b st key vals e ecb cb|b k v tb ms ig ign cb|b st v t tm cur tb ids ms ig cb].
  - auto.
  - destruct e; simpl in *; intuition auto.
  - destruct e; simpl in *; intuition auto.
  - destruct U as (-> & -> & Hv & U). split; [|split; [|split]]; auto.
    + exact (eq_trans Hv (eq_sym DD)).
    + fold (u_ms ms) in U. clear -Ux U. simpl. destruct (nth_error ms i) as [[m s]|]; auto.
      revert i. induction ms as [|[m' s'] r IH]; intros [|i]; simpl in *; auto; destruct U; split; auto; apply IH; auto.
  - destruct U as (-> & -> & -> & Hv & U). split; [|split; [|split; [|split]]]; auto.
    + exact (eq_trans Hv (eq_sym DD)).
    + fold (u_ms ms) in U. clear -Ux U. simpl. destruct (nth_error ms i) as [[m s]|]; auto.
      revert i. induction ms as [|[m' s'] r IH]; intros [|i]; simpl in *; auto; destruct U; split; auto; apply IH; auto.
Qed.

Lemma untouched_kid o i c : kid o i = Some c -> untouched o -> untouched c.
Proof.
  destruct o as [|b sd st vals ptr e cb|b st key vals e ecb cb|b k v tb ms ig ign cb|b st v t tm cur tb ids ms ig cb];
    simpl; try discriminate.
  - destruct e; [|discriminate]. destruct (Nat.eqb i 0); [|discriminate]. intros H; inversion H; subst. tauto.
  - destruct e; [|discriminate]. destruct (Nat.eqb i 0); [|discriminate]. intros H; inversion H; subst. tauto.
  - intros H (_ & _ & _ & U). fold (u_ms ms) in U. revert i H. induction ms as [|[m s] r IH]; intros [|i] H; simpl in *; try discriminate.
    + destruct s; inversion H; subst. tauto.
    + destruct U. eauto.
  - intros H (_ & _ & _ & _ & U). fold (u_ms ms) in U. revert i H. induction ms as [|[m s] r IH]; intros [|i] H; simpl in *; try discriminate.
    + destruct s; inversion H; subst. tauto.
    + destruct U. eauto.
Qed.

Lemma untouched_replace l : forall d x y, inside l d = Some x ->
  dflt (state nowhere y) = dflt (state nowhere x) -> untouched d -> (untouched x -> untouched y) ->
  untouched (replace l y d) /\ dflt (state nowhere (replace l y d)) = dflt (state nowhere d).
Proof.
  induction l as [|i l IH]; intros d x y Hx D U Uy; simpl in *.
  - inversion Hx; subst. auto.
  - destruct (kid d i) as [c|] eqn:E; [|discriminate].
    destruct (IH c x y Hx D (untouched_kid _ _ E U) Uy) as [H1 H2].
    split; [eapply untouched_set_kid|eapply dflt_set_kid]; eauto.
Qed.

Lemma no_ref_set_kid o i c x : kid o i = Some c -> no_ref (set_kid o i x) = true -> no_ref c = true -> no_ref o = true.
Proof.
  destruct o as [|b sd st vals ptr e cb|b st key vals e ecb cb|b k v tb ms ig ign cb|b st v t tm cur tb ids ms ig cb];
    simpl; auto.
  - destruct e; [|discriminate]. destruct (Nat.eqb i 0); [|discriminate]. intros H; inversion H; auto.
  - destruct e; [|discriminate]. destruct (Nat.eqb i 0); [|discriminate]. intros H; inversion H; auto.
  - destruct (nth_error ms i) as [[m [s|]]|] eqn:E; try discriminate. intros H; inversion H; subst. clear H.
    revert i E. induction ms as [|[m' s'] r IH]; intros [|i] E; simpl in *; try discriminate.
    + inversion E; subst. rewrite !andb_true_iff. tauto.
    + rewrite !andb_true_iff. intros [H1 H2] H3. split; eauto.
  - destruct (nth_error ms i) as [[m [s|]]|] eqn:E; try discriminate. intros H; inversion H; subst. clear H.
    revert i E. induction ms as [|[m' s'] r IH]; intros [|i] E; simpl in *; try discriminate.
    + inversion E; subst. rewrite !andb_true_iff. tauto.
    + rewrite !andb_true_iff. intros [H1 H2] H3. split; eauto.
Qed.

Lemma no_ref_kid_set o i c x : kid o i = Some c -> no_ref (set_kid o i x) = true -> no_ref x = true.
Proof.
  destruct o as [|b sd st vals ptr e cb|b st key vals e ecb cb|b k v tb ms ig ign cb|b st v t tm cur tb ids ms ig cb];
    simpl; try discriminate; auto.
  - destruct (nth_error ms i) as [[m [s|]]|] eqn:E; try discriminate. intros _.
    revert i E. induction ms as [|[m' s'] r IH]; intros [|i] E; simpl in *; try discriminate; rewrite andb_true_iff; intros [H1 H2]; eauto.
  - destruct (nth_error ms i) as [[m [s|]]|] eqn:E; try discriminate. intros _.
    revert i E. induction ms as [|[m' s'] r IH]; intros [|i] E; simpl in *; try discriminate; rewrite andb_true_iff; intros [H1 H2]; eauto.
Qed.

Lemma no_ref_replace l : forall d x y, inside l d = Some x -> no_ref x = true ->
  no_ref (replace l y d) = true -> no_ref d = true.
Proof.
  induction l as [|i l IH]; intros d x y Hx Nx N; simpl in *.
  - inversion Hx; subst. auto.
  - destruct (kid d i) as [c|] eqn:E; [|discriminate].
    pose proof (no_ref_kid_set _ _ _ E N) as N1. eapply no_ref_set_kid; eauto.
Qed.

(** *** Programs that only construct, move, assign and destroy *)
Definition all_untouched (m : objects) : Prop :=
  forall id live o, m id = Some (live, o) -> no_ref o = true -> untouched o.

Lemma take_untouched m a x s m1 : all_untouched m -> take m a x s m1 ->
  all_untouched m1 /\ (forall o, s = Own o -> no_ref o = true -> untouched o).
Proof.
  intros H T. destruct T as [id o Hm|p]; [|split; auto; discriminate].
  split.
  - intros j live q Hj. unfold mem_set in Hj. destruct (Nat.eqb_spec j id); [inversion Hj; subst|]; eauto.
  - intros q Hq N. inversion Hq; subst. apply untouched_move. rewrite no_ref_move in N. eauto.
Qed.

Lemma takes_untouched m a i xs ms m1 : all_untouched m -> takes m a i xs ms m1 ->
  all_untouched m1 /\ (forallb (fun mp => no_ref_s (snd mp)) ms = true -> u_ms ms).
Proof.
  intros H T. induction T as [i|i mm x r s r' m1 m2 T IH T2]; [simpl; auto|].
  destruct IH as [IH1 IH2]. destruct (take_untouched IH1 T2) as [H1 H2]. split; auto.
  simpl. rewrite andb_true_iff. intros [N1 N2]. split; auto. destruct s; auto.
Qed.

Lemma make_untouched m id o m1 : all_untouched m -> make m id o m1 ->
  all_untouched m1 /\ (no_ref o = true -> untouched o).
Proof.
  intros H M. destruct M as [t cb|st x e cb m1 T|st x e ecb cb m1 T|k xs ms v tb ign cb m1 rd T N V|st v t tm xs ms tb cb m1 rd T N V].
  - split; auto. simpl. auto.
  - destruct (take_untouched H T) as (H1 & H2). split; auto. simpl. destruct e; [|discriminate]. auto.
  - destruct (take_untouched H T) as (H1 & H2). split; auto. simpl. destruct e; [|discriminate]. auto.
  - destruct (takes_untouched H T) as [H1 H2]. split; auto. intros Nr.
    split; [|split; [|split]]; auto; [|apply H2; exact Nr].
    rewrite V. rewrite content_nowhere by exact Nr. rewrite !dflt_schema. reflexivity.
  - destruct (takes_untouched H T) as [H1 H2]. split; auto. intros Nr.
    split; [|split; [|split; [|split]]]; auto; [|apply H2; exact Nr].
    rewrite V. rewrite content_nowhere by exact Nr. rewrite !dflt_schema. reflexivity.
Qed.

Lemma step_untouched m m' : all_untouched m -> pstep false m m' -> all_untouched m'.
Proof.
  intros H S. destruct S as [id o m1 Hf Hm Hf1|id src o Hf Hs|id l live d x src o y Hne Hd Hs Hx Ha|id o o' Hu Ho Hp|id].
  - destruct (make_untouched H Hm) as [H1 H2]. intros j lv q Hj. unfold mem_set in Hj.
    destruct (Nat.eqb_spec j id); [inversion Hj; subst; auto|eauto].
  - intros j lv q Hj N. unfold mem_set in Hj. destruct (Nat.eqb_spec j id).
    + inversion Hj; subst. apply untouched_move. rewrite no_ref_move in N. eauto.
    + destruct (Nat.eqb_spec j src); [inversion Hj; subst|]; eauto.
  - intros j lv q Hj N. unfold mem_set in Hj. destruct (Nat.eqb_spec j id).
    + subst. injection Hj as Hl Hq. subst q.
      destruct (assign_no_ref _ _ _ Ha) as (N1 & N2 & N3).
      pose proof (no_ref_replace _ _ _ Hx N1 N) as Nd.
      eapply untouched_replace; eauto.
      * eapply assign_dflt; eauto.
      * intros Ux. eapply untouched_assign; eauto.
    + destruct (Nat.eqb_spec j src); [inversion Hj; subst|]; eauto.
  - discriminate.
  - intros j lv q Hj. simpl in Hj. destruct (Nat.eqb j id); [discriminate|eauto].
Qed.

Theorem program_untouched m : program false m -> forall id live o, m id = Some (live, o) -> no_ref o = true ->
  state nowhere o = mk (schema_of (state nowhere o)).
Proof.
  intros P id live o Hm N. apply untouched_mk; auto.
  assert (A : all_untouched m); [|eapply A; eauto].
  clear -P. induction P as [|m m' _ IH S]; [intros id live o H; discriminate|]. eapply step_untouched; eauto.
Qed.

