(** Replacing callbacks keeps what Typed.v says. *)

From Verif Require Import Spec Model Infra Total Safe Refine Main Closed Accept Access Callbacks Typed History.
Local Open Scope string_scope.
Set Implicit Arguments.

Section TypedInd.
  Variable P : schema -> value -> Prop.
  Hypothesis H1 : forall t cb x, ty_of x = t -> P (SVal t cb) (VSc x).
  Hypothesis H2 : forall e cb vs, Forall (P e) vs -> P (SArr true e cb) (VVec vs).
  Hypothesis H3 : forall e ecb cb kvs, Sorted.StronglySorted str_lt (map fst kvs) ->
    Forall (fun kv => P e (snd kv)) kvs -> P (SMp true e ecb cb) (VMap kvs).
  Hypothesis H4 : forall ms ign cb vs, Forall2 (fun mp v => P (snd mp) v) ms vs ->
    P (SObj OAuto ms ign cb) (VTup vs).
  Hypothesis H5 : forall ms ign cb o, P (SObj OCustom ms ign cb) (VCust o).
  Hypothesis H6 : forall t tm ms cb i m c v, nth_error ms i = Some (m, c) -> P c v ->
    P (SUni true t tm ms cb) (VVar i v).

  Fixpoint typed_ind' s v (H : typed s v) : P s v :=
    match H with
    | @ty_val t cb x K => @H1 t cb x K
    | @ty_arr e cb vs K =>
        @H2 e cb vs ((fix go vs (K : Forall (typed e) vs) : Forall (P e) vs :=
                        match K with
                        | Forall_nil _ => Forall_nil _
                        | @Forall_cons _ _ x r Hx Hr => @Forall_cons _ _ x r (typed_ind' Hx) (go r Hr)
                        end) vs K)
    | @ty_map e ecb cb kvs K1 K =>
        @H3 e ecb cb kvs K1
          ((fix go vs (K : Forall (fun kv => typed e (snd kv)) vs) : Forall (fun kv => P e (snd kv)) vs :=
              match K with
              | Forall_nil _ => Forall_nil _
              | @Forall_cons _ _ x r Hx Hr => @Forall_cons _ (fun kv => P e (snd kv)) x r (typed_ind' Hx) (go r Hr)
              end) kvs K)
    | @ty_auto ms ign cb vs K =>
        @H4 ms ign cb vs
          ((fix go ms vs (K : Forall2 (fun mp v => typed (snd mp) v) ms vs) : Forall2 (fun mp v => P (snd mp) v) ms vs :=
              match K with
              | Forall2_nil _ => Forall2_nil _
              | @Forall2_cons _ _ _ x y r r' Hx Hr =>
                  @Forall2_cons _ _ (fun mp v => P (snd mp) v) x y r r' (typed_ind' Hx) (go r r' Hr)
              end) ms vs K)
    | @ty_cust ms ign cb o => @H5 ms ign cb o
    | @ty_uni t tm ms cb i m c v K1 K2 => @H6 t tm ms cb i m c v K1 (typed_ind' K2)
    end.
End TypedInd.

Notation ums := (map (fun mp : mspec * schema => (fst mp, uncb_s (snd mp)))).

Lemma ums_nth ms ms' i m c : ums ms' = ums ms -> nth_error ms i = Some (m, c) ->
  exists c', nth_error ms' i = Some (m, c') /\ uncb_s c' = uncb_s c.
Proof.
  intros H Hn. assert (K : nth_error (ums ms') i = Some (m, uncb_s c)).
  { rewrite H, nth_error_map, Hn. reflexivity. }
  rewrite nth_error_map in K. destruct (nth_error ms' i) as [[m' c']|]; [|discriminate].
  simpl in K. injection K as -> K. exists c'. auto.
Qed.

Lemma ums_all (P : schema -> value -> Prop) ms vs : Forall2 (fun mp v => forall s', uncb_s s' = uncb_s (snd mp) -> P s' v) ms vs ->
  forall ms', ums ms' = ums ms -> Forall2 (fun mp v => P (snd mp) v) ms' vs.
Proof.
  induction 1 as [|[m c] v r r' Hx _ IH]; intros [|[m' c'] ms0] H; simpl in H; try discriminate.
  - constructor.
  - injection H as -> K1 K2. constructor; auto.
Qed.

Lemma typed_uncb s v : typed s v -> forall s', uncb_s s' = uncb_s s -> typed s' v.
Proof.
  intros H. induction H as [t cb x Hx|e cb vs IH|e ecb cb kvs Hk IH|ms ign cb vs IH|ms ign cb o|t tm ms cb i m c v Hn IH]
    using typed_ind'; intros s' Hs; destruct s'; simpl in Hs; try discriminate.
  - injection Hs as ->. constructor; auto.
  - injection Hs as -> Hs. constructor. eapply Forall_impl; [|exact IH]. auto.
  - injection Hs as -> Hs. constructor; auto. eapply Forall_impl; [|exact IH]. auto.
  - injection Hs as -> Hs ->. constructor. eapply ums_all; eauto.
  - injection Hs as -> Hs ->. constructor.
  - injection Hs as -> -> -> Hs. destruct (ums_nth _ _ i Hs Hn) as (c' & K1 & K2). econstructor; eauto.
Qed.

Lemma ums_forall (P : mspec * schema -> Prop) ms : Forall (fun mp => forall c, uncb_s c = uncb_s (snd mp) -> P (fst mp, c)) ms ->
  forall ms', ums ms' = ums ms -> Forall P ms'.
Proof.
  induction 1 as [|[m c] r Hx _ IH]; intros [|[m' c'] r'] H; simpl in H; try discriminate; auto.
  injection H as -> K1 K2. constructor; auto.
Qed.

Lemma defs_uncb ms ms' : ums ms' = ums ms ->
  Forall (fun mp : mspec * schema => forall d, m_def (fst mp) = Some d -> typed (snd mp) d) ms ->
  Forall (fun mp : mspec * schema => forall d, m_def (fst mp) = Some d -> typed (snd mp) d) ms'.
Proof.
  intros H K. eapply ums_forall; [|exact H]. eapply Forall_impl; [|exact K]. simpl.
  intros mp Hd c Hc d Hm. eapply typed_uncb; eauto.
Qed.

Lemma compiles_uncb s : compiles s -> forall s', uncb_s s' = uncb_s s -> compiles s'.
Proof.
  induction s as [| | | k ms ign cb IH | st t tm ms cb IH |] using schema_ind'; intros H s' Hs; inversion H; subst;
    destruct s'; simpl in Hs; try discriminate; try (constructor; fail).
  - injection Hs as -> Hs. constructor; eauto.
  - injection Hs as -> Hs. constructor; eauto.
  - injection Hs as -> Hs ->. constructor; eauto using defs_uncb. eapply ums_forall; [|exact Hs].
    rewrite Forall_forall in *. simpl. intros mp Hin c Hc. eapply IH; eauto.
  - injection Hs as -> -> -> Hs. constructor; eauto using defs_uncb.
    + eapply ums_forall; [|exact Hs]. rewrite Forall_forall in *. simpl. intros mp Hin c Hc. eapply IH; eauto.
    + intros Hst. destruct ms; [tauto|]. destruct ms0; discriminate.
Qed.

Notation ump := (map (fun mp : mspec * parser => (fst mp, uncb (snd mp)))).

Lemma fit_members ss ms : Forall2 (fun (sp : mspec * schema) (mp : mspec * parser) => fst sp = fst mp /\ forall p', uncb p' = uncb (snd mp) -> fit (schema_of p') p') ss ms ->
  forall ms', ump ms' = ump ms ->
  Forall2 (fun (sp : mspec * schema) (mp : mspec * parser) => fst sp = fst mp /\ fit (snd sp) (snd mp)) (map (fun mp : mspec * parser => (fst mp, schema_of (snd mp))) ms') ms'.
Proof.
  induction 1 as [|[m c] [m1 q] r r' [K1 K2] _ IH].
  - intros. destruct ms'; [constructor|discriminate].
  - intros [|[m' q'] r1] H; simpl in H; try discriminate. injection H as -> H1 H2. simpl. constructor; auto. simpl. split; auto.
Qed.

Lemma fit_schema_members ss ms : Forall2 (fun (sp : mspec * schema) (mp : mspec * parser) => fst sp = fst mp /\ schema_of (snd mp) = snd sp) ss ms ->
  map (fun mp : mspec * parser => (fst mp, schema_of (snd mp))) ms = ss.
Proof. induction 1 as [|[m c] [m1 q] r r' [K1 K2] _ IH]; simpl in *; congruence. Qed.

Lemma fit_schema s p : fit s p -> schema_of p = s.
Proof.
  intros H. induction H as [b t v cb x H1 H2|b sd st vals s e cb H1 H2 IH|b st key vals s e ecb cb H1 H2 IH
    |b k v ss ms ig ign cb H1 H2 H3 IH|b st v t tm cur ss ms ig cb H1 H2 H3 IH|i] using fit_ind'; simpl; try congruence.
  - f_equal. apply fit_schema_members. exact IH.
  - f_equal. apply fit_schema_members. exact IH.
Qed.

Lemma ump_schema ms' ms : ump ms' = ump ms ->
  ums (map (fun mp : mspec * parser => (fst mp, schema_of (snd mp))) ms') = ums (map (fun mp : mspec * parser => (fst mp, schema_of (snd mp))) ms).
Proof.
  revert ms. induction ms' as [|[m q] r IH]; intros [|[m1 q1] r1] H; simpl in H; try discriminate; auto.
  injection H as -> H1 H2. simpl. f_equal; auto. f_equal. rewrite <- !uncb_schema. congruence.
Qed.

Lemma fit_uncb s p : fit s p -> forall p', uncb p' = uncb p -> fit (schema_of p') p'.
Proof.
  intros H. induction H as [b t v cb x H1 H2|b sd st vals s e cb H1 H2 IH|b st key vals s e ecb cb H1 H2 IH
    |b k v ss ms ig ign cb H1 H2 H3 IH|b st v t tm cur ss ms ig cb H1 H2 H3 IH|i] using fit_ind';
    intros p' Hp; destruct p'; simpl in Hp; try discriminate.
  - injection Hp as -> -> ->. econstructor; eauto.
  - injection Hp as -> -> -> -> Hp. simpl. constructor; auto. destruct H1 as [H1|H1]; auto. left.
    eapply Forall_impl; [|exact H1]. intros v Hv. apply (typed_uncb Hv).
    rewrite <- uncb_schema, Hp, uncb_schema, (fit_schema H2). reflexivity.
  - injection Hp as -> -> -> -> Hp. simpl. constructor; auto. destruct H1 as [[H0 H1]|H1]; auto. left. split; auto.
    eapply Forall_impl; [|exact H1]. intros v Hv. apply (typed_uncb Hv).
    rewrite <- uncb_schema, Hp, uncb_schema, (fit_schema H2). reflexivity.
  - injection Hp as -> -> -> Hp -> ->.
    assert (Hs : ums (map (fun mp : mspec * parser => (fst mp, schema_of (snd mp))) ms0) = ums ss).
    { rewrite (ump_schema _ _ Hp). f_equal. apply fit_schema_members. clear - H3.
      induction H3 as [|x y r r' [K1 K2] _ IHr]; constructor; auto. split; auto. apply fit_schema; auto. }
    simpl. constructor.
    + destruct k; auto; [intros Hb; specialize (H1 Hb)|]; eapply typed_uncb; eauto; simpl; congruence.
    + eapply defs_uncb; eauto.
    + eapply fit_members; eauto.
  - injection Hp as -> -> -> -> -> -> Hp ->.
    assert (Hs : ums (map (fun mp : mspec * parser => (fst mp, schema_of (snd mp))) ms0) = ums ss).
    { rewrite (ump_schema _ _ Hp). f_equal. apply fit_schema_members. clear - H3.
      induction H3 as [|x y r r' [K1 K2] _ IHr]; constructor; auto. split; auto. apply fit_schema; auto. }
    simpl. constructor.
    + intros Hst. destruct (H1 Hst) as [K1 K2]. split.
      * apply (f_equal (@List.length _)) in Hp. rewrite !map_length in Hp. lia.
      * intros Hb. destruct (K2 Hb) as (x & -> & Hx). exists x. split; auto. eapply typed_uncb; eauto. simpl. congruence.
    + eapply defs_uncb; eauto.
    + eapply fit_members; eauto.
  - injection Hp as ->. constructor.
Qed.

Lemma uncb_declare w pi c s : uncb_s (declare_at w pi c s) = uncb_s s.
Proof.
  pose proof (schema_set_at w pi c (mk s)) as H. rewrite schema_mk in H.
  rewrite <- H, <- uncb_schema, uncb_set_at, uncb_schema, schema_mk. reflexivity.
Qed.
