(** Where values come from: for every declaration, in every state any calls can lead to,
    with any texts and callbacks, what the accessors return and what callbacks are told is
    made of scalars and keys of the text (and of the declaration's default values). *)

From Verif Require Import Spec Model Infra Total Safe Refine Main Closed Accept Access Typed.
Local Open Scope string_scope.
Set Implicit Arguments.

Section From.
(** The scalars and the keys to be made of. *)
Variable SC : scalar -> Prop.
Variable KY : string -> Prop.

(** What is inside a value of a user's type ([VCust]) is the user's. *)
Inductive made : value -> Prop :=
| md_sc x : SC x -> made (VSc x)
| md_vec vs : (forall v, In v vs -> made v) -> made (VVec vs)
| md_map kvs : (forall k v, In (k, v) kvs -> KY k /\ made v) -> made (VMap kvs)
| md_tup vs : (forall v, In v vs -> made v) -> made (VTup vs)
| md_var i v : made v -> made (VVar i v)
| md_cust o : made (VCust o).

(** Every value a view shows. *)
Inductive shown : view -> value -> Prop :=
| sh_here w v : v_val w = Some v -> shown w v
| sh_kid w k v : In k (v_kids w) -> shown k v -> shown w v.

(** ** The invariant *)
Definition defaults_made A (ms : list (mspec * A)) : Prop :=
  forall m c d, In (m, c) ms -> m_def m = Some d -> made d.

Definition own_made (p : parser) : Prop :=
  match p with
  | PVal b _ v _ => b_set b = true -> made v
  | PArr _ _ _ vals _ _ => forall v, In v vals -> made v
  | PMap _ _ _ vals _ _ _ => forall k v, In (k, v) vals -> KY k /\ made v
  | PObj b k v ms _ _ _ =>
      match k with
      | OPlain => True
      | OAuto => b_set b = true -> made v
      | OCustom => exists o, v = VCust o
      end /\ defaults_made ms
  | PUni b st v _ _ cur ms _ _ =>
      (st = true -> cur < List.length ms /\ (b_set b = true -> made v)) /\ defaults_made ms
  | PIgn _ => True
  end.

Inductive pure : parser -> Prop :=
  pure_intro p : own_made p -> (forall sp c, child p sp = Some c -> pure c) -> pure p.

Lemma pure_own p : pure p -> own_made p.
Proof. destruct 1; auto. Qed.
Lemma pure_child p sp c : pure p -> child p sp = Some c -> pure c.
Proof. destruct 1; eauto. Qed.

Lemma pure_get pi : forall p q, pure p -> get pi p = Some q -> pure q.
Proof.
  induction pi as [|sp pi IH]; simpl; intros p q H Hg; [congruence|].
  destruct (child p sp) eqn:Hc; [|discriminate]. eauto using pure_child.
Qed.

Lemma pure_ign i : pure (PIgn i).
Proof. constructor; simpl; auto. intros [] c; discriminate. Qed.

Lemma nth_set_nth_eq A n (x : A) l i : nth_error (set_nth n x l) i =
  if Nat.eqb i n then (if Nat.ltb n (List.length l) then Some x else None) else nth_error l i.
Proof.
  revert l i. induction n as [|n IH]; intros [|y l] [|i]; simpl; auto.
  - destruct (Nat.eqb i n); auto.
  - rewrite IH. destruct (Nat.eqb i n); auto.
Qed.

Lemma set_mem_nth n q ms i c : nth_error (set_mem n q ms) i = Some c ->
  (exists mp, i = n /\ nth_error ms n = Some mp /\ c = (fst mp, q)) \/ nth_error ms i = Some c.
Proof.
  unfold set_mem. destruct (nth_error ms n) as [mp|] eqn:Hn; auto.
  rewrite nth_set_nth_eq. destruct (Nat.eqb i n) eqn:Hi; auto. apply Nat.eqb_eq in Hi. subst i.
  destruct (Nat.ltb n (List.length ms)); [|discriminate]. intros H. injection H as <-. left. eauto.
Qed.

Lemma set_mem_defaults n q ms : defaults_made ms -> defaults_made (set_mem n q ms).
Proof.
  intros H m c d Hin Hd. apply In_nth_error in Hin. destruct Hin as [i Hi].
  destruct (set_mem_nth _ _ _ _ Hi) as [([m' c'] & _ & Hn & He)|Hn].
  - injection He as -> ->. eapply H; eauto. eapply nth_error_In; eauto.
  - eapply H; eauto. eapply nth_error_In; eauto.
Qed.

Lemma pure_set_child p sp c q : pure p -> child p sp = Some c -> pure q -> pure (set_child p sp q).
Proof.
  intros H Hc Hq. pose proof (pure_own H) as Ho. constructor.
  - destruct p, sp; simpl in *; auto; destruct Ho; split; auto using set_mem_defaults. rewrite set_mem_length; auto.
  - intros sp' c' Hc'. pose proof (fun sp c => @pure_child _ sp c H) as K.
    destruct p, sp; simpl in *; try discriminate; destruct sp' as [|n'|]; simpl in *; try discriminate;
      try (injection Hc' as <-; auto using pure_ign; fail).
    + destruct (nth_error (set_mem n q ms) n') as [mp|] eqn:Hn; [|discriminate]. injection Hc' as <-.
      destruct (set_mem_nth _ _ _ _ Hn) as [(mp' & _ & _ & ->)|Hn']; auto.
      apply (K (Mem n')). simpl. rewrite Hn'. auto.
    + apply (K (Mem n')). auto.
    + destruct (nth_error (set_mem n q ms) n') as [mp|] eqn:Hn; [|discriminate]. injection Hc' as <-.
      destruct (set_mem_nth _ _ _ _ Hn) as [(mp' & _ & _ & ->)|Hn']; auto.
      apply (K (Mem n')). simpl. rewrite Hn'. auto.
    + apply (K (Mem n')). auto.
Qed.

Lemma pure_put pi : forall p q c, pure p -> get pi p = Some c -> pure q -> pure (put pi q p).
Proof.
  induction pi as [|sp pi IH]; simpl; intros p q c H Hg Hq; auto.
  destruct (child p sp) as [x|] eqn:Hx; [|discriminate].
  eapply pure_set_child; eauto using pure_child.
Qed.

(** The same children, and a fitting own_made part. *)
Lemma pure_same p q : pure p -> own_made q -> (forall sp, child q sp = child p sp) -> pure q.
Proof. intros H Ho Hc. constructor; auto. intros sp c. rewrite Hc. eauto using pure_child. Qed.

Lemma pure_with_base p b : pure p -> (b_set b = true -> b_set (base_of p) = true) -> pure (with_base p b).
Proof.
  intros H Hb. pose proof (pure_own H) as Ho. destruct p; simpl in *;
    try (eapply pure_same; [exact H|simpl; auto|intros []; reflexivity]; fail).
  - eapply pure_same; [exact H| |intros []; reflexivity]. simpl. destruct Ho. split; auto. destruct k; auto.
  - eapply pure_same; [exact H| |intros []; reflexivity]. simpl. destruct Ho as [Ho1 Ho2]. split; auto.
    intros Hs. destruct (Ho1 Hs). auto.
Qed.

Lemma pure_unset p : pure p -> pure (set_set false p).
Proof. intros H. apply pure_with_base; auto. simpl. discriminate. Qed.
Lemma pure_not_empty p : pure p -> pure (set_not_empty p).
Proof. intros H. apply pure_with_base; auto. Qed.

Lemma nth_map A B (f : A -> B) l n : nth_error (map f l) n = option_map f (nth_error l n).
Proof. revert n; induction l; intros [|n]; simpl; auto. Qed.

Lemma defaults_map A B (f : A -> B) (ms : list (mspec * A)) :
  defaults_made ms -> defaults_made (map (fun mp => (fst mp, f (snd mp))) ms).
Proof.
  intros H m c d Hin. apply in_map_iff in Hin. destruct Hin as ([m' c'] & He & Hin). injection He as <- <-. eauto.
Qed.

Lemma pure_set_disp d p : pure p -> pure (set_disp d p).
Proof.
  induction 1 as [p Ho Hc IH]. constructor.
  - destruct p; simpl in *; auto; destruct Ho; split; auto; try (apply (@defaults_map _ _ (set_disp d)); auto).
    rewrite map_length; auto.
  - intros sp c. destruct p, sp; simpl in *; try discriminate.
    + apply (Hc Elem).
    + intros H. injection H as <-. apply (IH Elem). reflexivity.
    + rewrite nth_map. destruct (nth_error ms n) as [mp|] eqn:Hn; simpl; [|discriminate].
      intros H. injection H as <-. apply (IH (Mem n)). simpl. rewrite Hn. auto.
    + intros H. injection H as <-. apply pure_ign.
    + rewrite nth_map. destruct (nth_error ms n) as [mp|] eqn:Hn; simpl; [|discriminate].
      intros H. injection H as <-. apply (IH (Mem n)). simpl. rewrite Hn. auto.
    + intros H. injection H as <-. apply pure_ign.
Qed.

Lemma pure_reset p : pure p -> pure (reset p).
Proof.
  induction 1 as [p Ho Hc IH]. constructor.
  - destruct p; cbn [reset own_made b_set reset_base] in *; auto.
    + discriminate.
    + destruct store; auto. intros v [].
    + destruct store; auto. intros k v [].
    + destruct Ho. split; [|apply (@defaults_map _ _ reset); auto]. destruct k; auto; [discriminate|].
      simpl. eauto.
    + destruct Ho as [Ho1 Ho2]. split; [|apply (@defaults_map _ _ reset); auto]. rewrite map_length.
      intros Hs. destruct (Ho1 Hs). split; [lia|discriminate].
  - intros sp c. destruct p, sp; cbn [reset child] in *; try discriminate.
    + intros H. injection H as <-. apply (IH Elem). reflexivity.
    + apply (Hc Elem).
    + rewrite nth_map. destruct (nth_error ms n) as [mp|] eqn:Hn; simpl; [|discriminate].
      intros H. injection H as <-. apply (IH (Mem n)). simpl. rewrite Hn. auto.
    + intros H. injection H as <-. apply pure_ign.
    + rewrite nth_map. destruct (nth_error ms n) as [mp|] eqn:Hn; simpl; [|discriminate].
      intros H. injection H as <-. apply (IH (Mem n)). simpl. rewrite Hn. auto.
    + intros H. injection H as <-. apply pure_ign.
Qed.

Lemma pure_unset_at p rel : pure p -> pure (unset_at p rel).
Proof.
  intros H. unfold unset_at. destruct (get rel p) as [q|] eqn:Hq; auto.
  destruct (stored q); auto. eapply pure_put; eauto. apply pure_unset. eapply pure_get; eauto.
Qed.

Lemma pure_pops rels : forall p, pure p -> pure (apply_pops rels p).
Proof. induction rels as [|r rels IH]; intros p H; simpl; auto. apply IH, pure_unset_at; auto. Qed.

Lemma pure_value p v : pure p -> get_value p = Some v -> made v.
Proof.
  intros H. apply pure_own in H. unfold get_value, is_set. destruct p; simpl in *.
  - destruct (b_set b); [|discriminate]. intros Hv. injection Hv as <-. auto.
  - destruct (b_set b); [|discriminate]. destruct store; [|discriminate]. intros Hv. injection Hv as <-. constructor; auto.
  - destruct (b_set b); [|discriminate]. destruct store; [|discriminate]. intros Hv. injection Hv as <-. constructor; auto.
  - destruct (b_set b) eqn:Hb; [|discriminate]. destruct k; [discriminate| |]; intros Hv; injection Hv as <-.
    + apply H; auto.
    + destruct H as [[o ->] _]. constructor.
  - destruct (b_set b) eqn:Hb; [|discriminate]. destruct store; [|discriminate]. intros Hv. injection Hv as <-. destruct H as [H _]. destruct (H eq_refl); auto.
  - destruct (b_set (ig_b i)); discriminate.
Qed.

Lemma pure_pop p v q : pure p -> pop_value p = Some (v, q) -> made v /\ pure q.
Proof.
  unfold pop_value. intros H. destruct (get_value p) eqn:Hv; [|discriminate]. intros He. injection He as <- <-.
  split; [eapply pure_value; eauto|apply pure_unset; auto].
Qed.

(** Declarations whose default values are made. *)
Inductive defaults_text : schema -> Prop :=
| dt_val t cb : defaults_text (SVal t cb)
| dt_arr st e cb : defaults_text e -> defaults_text (SArr st e cb)
| dt_map st e ecb cb : defaults_text e -> defaults_text (SMp st e ecb cb)
| dt_obj k ms ign cb : Forall (fun mp => defaults_text (snd mp)) ms -> defaults_made ms -> defaults_text (SObj k ms ign cb)
| dt_uni st t tm ms cb : Forall (fun mp => defaults_text (snd mp)) ms -> defaults_made ms -> (st = true -> ms <> []) -> defaults_text (SUni st t tm ms cb)
| dt_ign : defaults_text SIgn.

Lemma pure_mk s : defaults_text s -> pure (mk s).
Proof.
  induction s as [| | | k ms ign cb IH | st t tm ms cb IH |] using schema_ind'; intros H; inversion H; subst; constructor;
    try (simpl; eauto; fail); try (intros [] c; simpl; try discriminate; intros Hc; injection Hc as <-; auto; fail).
  - simpl. discriminate.
  - simpl. intros v [].
  - simpl. intros k v [].
  - cbn [mk own_made]. split; [|apply (@defaults_map _ _ mk); auto]. destruct k; simpl; eauto; discriminate.
  - intros [] c; simpl; try discriminate; [|intros Hc; injection Hc as <-; apply pure_ign].
    rewrite nth_map. destruct (nth_error ms n) as [mp|] eqn:Hn; simpl; [|discriminate]. intros Hc. injection Hc as <-.
    apply nth_error_In in Hn. rewrite Forall_forall in *. auto.
  - cbn [mk own_made]. split; [|apply (@defaults_map _ _ mk); auto]. rewrite map_length.
    intros Hs. split; [|discriminate]. destruct ms; simpl; [|lia].
    match goal with H : st = true -> _ |- _ => exfalso; apply (H Hs eq_refl) end.
  - intros [] c; simpl; try discriminate; [|intros Hc; injection Hc as <-; apply pure_ign].
    rewrite nth_map. destruct (nth_error ms n) as [mp|] eqn:Hn; simpl; [|discriminate]. intros Hc. injection Hc as <-.
    apply nth_error_In in Hn. rewrite Forall_forall in *. auto.
Qed.

Lemma insert_made k v (l : list (string * value)) : KY k -> made v -> (forall k v, In (k, v) l -> KY k /\ made v) ->
  forall k' v', In (k', v') (std_insert k v l) -> KY k' /\ made v'.
Proof.
  intros H1 H2. induction l as [|[k1 v1] l IH]; simpl; intros H k' v' Hin.
  - destruct Hin as [He|[]]. injection He as <- <-. auto.
  - destruct (String.eqb k k1); [eapply H; eauto|]. destruct (str_less k k1); simpl in Hin.
    + destruct Hin as [He|Hin]; [injection He as <- <-; auto|eauto].
    + destruct Hin as [He|Hin]; [injection He as <- <-; eapply H; eauto|]. apply IH with (k' := k'); auto.
Qed.

Lemma view_made p : pure p -> forall v, shown (view_of p) v -> made v.
Proof.
  induction p as [b t v0 cb|b sd st vals e cb IH|b st key vals e ecb cb IH|b k v0 ms ig ign cb IH|b st v0 t tm cur ms ig cb IH|i]
    using parser_ind'; intros H v Hs; inversion Hs as [w v1 Hv|w kd v1 Hin Hk]; subst;
    try (simpl in Hin; contradiction); try (eapply pure_value; [exact H|exact Hv]).
  - simpl in Hin. apply in_map_iff in Hin. destruct Hin as ([m q] & <- & Hin). rewrite Forall_forall in IH.
    apply (IH _ Hin); auto. apply In_nth_error in Hin. destruct Hin as [n Hn]. apply (@pure_child _ (Mem n) _ H). simpl. rewrite Hn. auto.
  - simpl in Hin. apply in_map_iff in Hin. destruct Hin as ([m q] & <- & Hin). rewrite Forall_forall in IH.
    apply (IH _ Hin); auto. apply In_nth_error in Hin. destruct Hin as [n Hn]. apply (@pure_child _ (Mem n) _ H). simpl. rewrite Hn. auto.
Qed.

(** *** Keys: a map that is not on top of the stack has one. *)
Definition keyed_own (p : parser) : Prop := match p with PMap _ _ key _ _ _ _ => KY key | _ => True end.
Definition keyed (rel : path) (p : parser) : Prop := match get rel p with Some q => keyed_own q | None => True end.
Definition kle (p q : parser) : Prop := forall rel, keyed rel p -> keyed rel q.

Lemma kle_refl p : kle p p. Proof. intros rel H; exact H. Qed.
Lemma kle_trans p q r : kle p q -> kle q r -> kle p r. Proof. unfold kle; auto. Qed.

Lemma kle_intro p q : (keyed_own p -> keyed_own q) ->
  (forall sp c', child q sp = Some c' -> (exists c, child p sp = Some c /\ kle c c') \/ exists i, c' = PIgn i) -> kle p q.
Proof.
  intros Ho Hc [|sp rel] H; [exact (Ho H)|]. unfold keyed in *. simpl in *.
  destruct (child q sp) as [c'|] eqn:Hq; [|exact I]. destruct (Hc _ _ Hq) as [(c & Hp & Hk)|[i ->]].
  - rewrite Hp in H. exact (Hk rel H).
  - destruct rel as [|[] rel]; simpl; auto.
Qed.

Lemma kle_same p q : (keyed_own p -> keyed_own q) -> (forall sp, child q sp = child p sp) -> kle p q.
Proof. intros Ho Hc. apply kle_intro; auto. intros sp c' H. rewrite Hc in H. left. eauto using kle_refl. Qed.

Lemma kle_base p b : kle p (with_base p b).
Proof. apply kle_same; destruct p; simpl; auto; intros []; reflexivity. Qed.

Lemma kle_set_child p sp c q : child p sp = Some c -> kle c q -> kle p (set_child p sp q).
Proof.
  intros Hc Hq. apply kle_intro; [destruct p, sp; simpl in *; auto|].
  intros sp' c' Hc'. destruct p, sp; simpl in *; try discriminate; destruct sp' as [|n'|]; simpl in *; try discriminate;
    try (injection Hc' as <-; eauto using kle_refl; fail); try (injection Hc as <-; injection Hc' as <-; eauto; fail);
    try (left; eexists; split; [eassumption|apply kle_refl]).
  - destruct (nth_error (set_mem n q ms) n') as [mp|] eqn:Hn; [|discriminate]. injection Hc' as <-.
    destruct (set_mem_nth _ _ _ _ Hn) as [(mp' & -> & Hn' & ->)|Hn']; left.
    + rewrite Hn' in *. injection Hc as <-. simpl. eauto.
    + rewrite Hn'. simpl. eauto using kle_refl.
  - destruct (nth_error (set_mem n q ms) n') as [mp|] eqn:Hn; [|discriminate]. injection Hc' as <-.
    destruct (set_mem_nth _ _ _ _ Hn) as [(mp' & -> & Hn' & ->)|Hn']; left.
    + rewrite Hn' in *. injection Hc as <-. simpl. eauto.
    + rewrite Hn'. simpl. eauto using kle_refl.
Qed.

Lemma kle_put pi : forall p q c, get pi p = Some c -> kle c q -> kle p (put pi q p).
Proof.
  induction pi as [|sp pi IH]; simpl; intros p q c Hg Hq; [injection Hg as ->; auto|].
  destruct (child p sp) as [x|] eqn:Hx; [|discriminate]. eapply kle_set_child; eauto.
Qed.

Lemma kle_set_disp d p : kle p (set_disp d p).
Proof.
  induction p as [b t v0 cb|b sd st vals e cb IH|b st key vals e ecb cb IH|b k v0 ms ig ign cb IH|b st v0 t tm cur ms ig cb IH|i]
    using parser_ind'; apply kle_intro; simpl; auto; intros [] c'; simpl; try discriminate;
    try (intros H; injection H as <-; eauto using kle_refl; fail).
  - rewrite nth_map. destruct (nth_error ms n) as [mp|] eqn:Hn; simpl; [|discriminate]. intros H. injection H as <-. left.
    eexists; split; [reflexivity|]. rewrite Forall_forall in IH. apply (IH mp). eapply nth_error_In; eauto.
  - rewrite nth_map. destruct (nth_error ms n) as [mp|] eqn:Hn; simpl; [|discriminate]. intros H. injection H as <-. left.
    eexists; split; [reflexivity|]. rewrite Forall_forall in IH. apply (IH mp). eapply nth_error_In; eauto.
Qed.

Lemma kle_reset p : kle p (reset p).
Proof.
  induction p as [b t v0 cb|b sd st vals e cb IH|b st key vals e ecb cb IH|b k v0 ms ig ign cb IH|b st v0 t tm cur ms ig cb IH|i]
    using parser_ind'; apply kle_intro; try (simpl; auto; fail); intros [] c'; cbn [child reset]; try discriminate;
    try (intros H; injection H as <-; eauto using kle_refl; fail).
  - rewrite nth_map. destruct (nth_error ms n) as [mp|] eqn:Hn; simpl; [|discriminate]. intros H. injection H as <-. left.
    eexists; split; [reflexivity|]. rewrite Forall_forall in IH. apply (IH mp). eapply nth_error_In; eauto.
  - rewrite nth_map. destruct (nth_error ms n) as [mp|] eqn:Hn; simpl; [|discriminate]. intros H. injection H as <-. left.
    eexists; split; [reflexivity|]. rewrite Forall_forall in IH. apply (IH mp). eapply nth_error_In; eauto.
Qed.

Lemma kle_unset_at p rel : kle p (unset_at p rel).
Proof.
  unfold unset_at. destruct (get rel p) as [q|] eqn:Hq; [|apply kle_refl].
  destruct (stored q); [|apply kle_refl]. eapply kle_put; eauto. apply kle_base.
Qed.

Lemma kle_pops rels : forall p, kle p (apply_pops rels p).
Proof.
  induction rels as [|r rels IH]; intros p; simpl; [apply kle_refl|]. eapply kle_trans; [apply kle_unset_at|apply IH].
Qed.

Lemma kle_pop p v q : pop_value p = Some (v, q) -> kle p q.
Proof. unfold pop_value. destruct (get_value p); [|discriminate]. intros H. injection H as <- <-. apply kle_base. Qed.

(** Members that are the same but for that. *)
Definition klm (ms ms' : list (mspec * parser)) : Prop :=
  forall i mp', nth_error ms' i = Some mp' -> exists mp, nth_error ms i = Some mp /\ kle (snd mp) (snd mp').

Lemma klm_refl ms : klm ms ms. Proof. intros i mp H; eauto using kle_refl. Qed.
Lemma klm_cons m p p' r r' : kle p p' -> klm r r' -> klm ((m, p) :: r) ((m, p') :: r').
Proof. intros H1 H2 [|i] mp' H; simpl in *; [injection H as <-; eauto|apply H2; auto]. Qed.

Lemma kle_obj b k v ms ig ign cb b' k' v' ms' ig' ign' cb' : klm ms ms' ->
  kle (PObj b k v ms ig ign cb) (PObj b' k' v' ms' ig' ign' cb').
Proof.
  intros H. apply kle_intro; simpl; auto. intros [] c'; simpl; try discriminate; [|intros K; injection K as <-; eauto].
  destruct (nth_error ms' n) as [mp|] eqn:Hn; [|discriminate]. intros K. injection K as <-. left.
  destruct (H _ _ Hn) as (mp0 & -> & K). simpl. eauto.
Qed.
Lemma kle_uni b st v t tm cur ms ig cb b' st' v' t' tm' cur' ms' ig' cb' : klm ms ms' ->
  kle (PUni b st v t tm cur ms ig cb) (PUni b' st' v' t' tm' cur' ms' ig' cb').
Proof.
  intros H. apply kle_intro; simpl; auto. intros [] c'; simpl; try discriminate; [|intros K; injection K as <-; eauto].
  destruct (nth_error ms' n) as [mp|] eqn:Hn; [|discriminate]. intros K. injection K as <-. left.
  destruct (H _ _ Hn) as (mp0 & -> & K). simpl. eauto.
Qed.
Lemma kle_elem p q e e' : child p Elem = Some e -> child q Elem = Some e' -> kle e e' -> (keyed_own p -> keyed_own q) ->
  (forall sp, sp <> Elem -> child q sp = None) -> kle p q.
Proof.
  intros H1 H2 H3 H4 H5. apply kle_intro; auto. intros sp c' Hc. destruct (step_eq_dec sp Elem) as [->|Hne].
  - left. exists e. rewrite H2 in Hc. injection Hc as <-. auto.
  - rewrite H5 in Hc by auto. discriminate.
Qed.

(** What callbacks are told: all that an event shows. *)
Definition told_made (e : event) : Prop :=
  match e with
  | Ev _ (OVal v) => made v
  | Ev _ (OSelf w) => forall v, shown w v -> made v
  | Ev _ (OElem k w) => KY k /\ forall v, shown w v -> made v
  | Ev _ (OCust w v) => (forall v', shown w v' -> made v') /\ made v
  end.

(** ** Runs *)
Section Run.
Variable E : env.
Variable g : nat.
Variable l0 : list event.

Record inv_ (m : mstate) : Prop := mkInv {
  i_pure : pure (m_root m);
  i_log : exists l, m_log m = (l0 ++ l)%list /\ Forall told_made l;
  i_tail : forall sigma, In sigma (tl (m_stack m)) -> keyed sigma (m_root m) }.

(** What is left of it when a call fails: the stack is not looked at again. *)
Definition left_ (m : mstate) : Prop :=
  pure (m_root m) /\ exists l, m_log m = (l0 ++ l)%list /\ Forall told_made l.
Lemma inv_left m : inv_ m -> left_ m.
Proof. intros [H1 H2 _]. split; auto. Qed.

Definition okf (m : mstate) (r : res) : Prop :=
  match r with ROk m' => inv_ m' /\ kle (m_root m) (m_root m') | RThrow _ m' => left_ m' | _ => True end.
Lemma okf_thr m e m' : inv_ m' /\ kle (m_root m) (m_root m') -> okf m (RThrow e m').
Proof. intros [H1 H2]. apply inv_left; auto. Qed.

Lemma okf_here m m' : inv_ m' -> kle (m_root m) (m_root m') -> okf m (ROk m').
Proof. split; auto. Qed.
Lemma okf_refl m : inv_ m -> okf m (ROk m).
Proof. split; auto using kle_refl. Qed.
Lemma okf_throw m e : inv_ m -> okf m (RThrow e m).
Proof. apply inv_left. Qed.
Lemma okf_from m m1 r : kle (m_root m) (m_root m1) -> okf m1 r -> okf m r.
Proof. destruct r; simpl; auto; intros H [H1 H2]; split; auto; eapply kle_trans; eauto. Qed.
Lemma okf_bind m r k : okf m r -> (forall m1, inv_ m1 -> kle (m_root m) (m_root m1) -> okf m1 (k m1)) -> okf m (bind r k).
Proof. destruct r as [m1|e m1|u|]; simpl; auto. intros [H1 H2] Hk. eapply okf_from; eauto. Qed.
Lemma okf_at m0 m pi k : (forall p, get pi (m_root m) = Some p -> okf m0 (k p)) -> okf m0 (at_node m pi k).
Proof. unfold at_node. destruct (get pi (m_root m)); simpl; auto. Qed.
Lemma okf_deref m d r : okf m r -> okf m (deref g d r).
Proof. unfold deref. destruct d; simpl; auto. destruct (Nat.eqb n g); simpl; auto. Qed.

Lemma kle_upd m pi p q : get pi (m_root m) = Some p -> kle p q -> kle (m_root m) (m_root (upd m pi q)).
Proof. intros H1 H2. simpl. eapply kle_put; eauto. Qed.
Lemma inv_upd m pi p q : inv_ m -> get pi (m_root m) = Some p -> pure q -> kle p q -> inv_ (upd m pi q).
Proof.
  intros [H1 H2 H3] Hg Hr Hk. split; simpl; auto.
  - eapply pure_put; eauto.
  - intros sigma Hs. eapply kle_put; eauto.
Qed.
Lemma inv_log m e : inv_ m -> told_made e -> inv_ (add_log m e).
Proof.
  intros [H1 (l & H2 & H3) H4] He. split; auto. exists (l ++ [e])%list. simpl. rewrite H2, app_assoc.
  split; auto. apply Forall_app; auto.
Qed.
Lemma inv_unset m rel : inv_ m -> inv_ (mkS (unset_at (m_root m) rel) (m_stack m) (m_log m)).
Proof.
  intros [H1 H2 H3]. split; simpl; auto; [apply pure_unset_at; auto|]. intros sigma Hs. apply kle_unset_at. auto.
Qed.
Lemma inv_away rels : forall m, inv_ m -> inv_ (away rels m) /\ kle (m_root m) (m_root (away rels m)).
Proof.
  unfold away. induction rels as [|rel rels IH]; intros m H; simpl; [auto using kle_refl|].
  destruct (IH _ (inv_unset rel H)) as [K1 K2]. split; auto. eapply kle_trans; [|exact K2]. simpl. apply kle_unset_at.
Qed.

Lemma okf_run_cb c a eff msg m :
  inv_ m -> (forall i, told_made (Ev i (obs_of a))) ->
  (forall o m', inv_ m' -> m_root m' = m_root m -> inv_ (eff o m') /\ kle (m_root m) (m_root (eff o m'))) -> okf m (run_cb E c a eff msg m).
Proof.
  intros H Ha He. unfold run_cb. destruct c as [c|]; [|apply okf_refl; auto].
  set (o := e_cb E c (m_log m) (m_root m) a).
  destruct (He o (add_log m (Ev c (obs_of a)))) as [K1 K2]; auto using inv_log.
  destruct (@inv_away (co_away o) _ K1) as [K3 K4].
  assert (K5 : kle (m_root m) (m_root (away (co_away o) (eff o (add_log m (Ev c (obs_of a))))))) by (eapply kle_trans; eauto).
  destruct (co_res o); [split; auto|apply okf_thr; auto..].
Qed.

Lemma inv_pops pi o m : inv_ m -> inv_ (pops_eff pi o m) /\ kle (m_root m) (m_root (pops_eff pi o m)).
Proof.
  intros H. unfold pops_eff. destruct (get pi (m_root m)) as [p|] eqn:Hg; [|auto using kle_refl]. split.
  - eapply inv_upd; eauto using kle_pops. apply pure_pops. eapply pure_get; eauto. apply H.
  - eapply kle_upd; eauto using kle_pops.
Qed.

Lemma inv_cust pi o m : inv_ m ->
  match get pi (m_root m) with Some (PObj _ k _ _ _ _ _) => k = OCustom | _ => True end ->
  inv_ (cust_eff pi o m) /\ kle (m_root m) (m_root (cust_eff pi o m)).
Proof.
  intros H. unfold cust_eff. destruct (get pi (m_root m)) as [[]|] eqn:Hg; auto using kle_refl. intros ->.
  pose proof (pure_get _ (i_pure H) Hg) as Hs. set (v' := match co_new o with Some w => VCust (Some w) | None => v end).
  assert (Hk : kle (PObj b OCustom v ms ig ign cb) (apply_pops (co_pops o) (PObj b OCustom v' ms ig ign cb))).
  { eapply kle_trans; [|apply kle_pops]. apply kle_obj, klm_refl. }
  split; [|eapply kle_upd; eauto]. eapply inv_upd; eauto. apply pure_pops.
  eapply pure_same; [exact Hs| |intros []; reflexivity]. destruct (pure_own Hs). split; auto. subst v'.
  destruct (co_new o); eauto.
Qed.

Lemma set_values_pure ms : defaults_made ms -> (forall m p, In (m, p) ms -> pure p) ->
  forall ms' x, set_values E ms = (ms', x) ->
  defaults_made ms' /\ (forall m p, In (m, p) ms' -> pure p) /\ klm ms ms' /\
  match x with inl _ => True | inr vs => forall v, In v vs -> made v end.
Proof.
  induction ms as [|[m p] r IH]; simpl; intros Hd Hs ms' x Hx.
  - injection Hx as <- <-. split; [auto|]. split; auto. split; [apply klm_refl|]. intros v [].
  - destruct (set_values E r) as [r'' y] eqn:Hy.
    assert (Hd' : defaults_made r) by (intros m1 c1 d1 K; apply (Hd m1 c1 d1); simpl; auto).
    destruct (IH Hd' ltac:(eauto) _ _ eq_refl) as (K1 & K2 & K4 & K3).
    assert (Hp : pure p) by (eapply Hs; eauto).
    assert (G : forall p', pure p' -> kle p p' ->
      defaults_made ((m, p') :: r'') /\ (forall m0 p0, In (m0, p0) ((m, p') :: r'') -> pure p0) /\ klm ((m, p) :: r) ((m, p') :: r'')).
    { intros p' Hp' Hk. split; [|split].
      - intros m0 c d [He|Hin] Hm; [injection He as <- <-; eapply Hd; simpl; eauto|eauto].
      - intros m0 p0 [He|Hin]; [injection He as <- <-; auto|eauto].
      - apply klm_cons; auto. }
    destruct (G p Hp (kle_refl p)) as (G1 & G2 & G3).
    destruct y as [e|vs]; [injection Hx as <- <-; auto|].
    destruct (is_set p).
    + destruct (pop_value p) as [[v p']|] eqn:Hv.
      * destruct (pure_pop Hp Hv) as [P1 P2]. destruct (G p' P2 (kle_pop _ Hv)) as (G4 & G5 & G6).
        destruct (e_store E v) eqn:Hst; injection Hx as <- <-; auto. split; [auto|]. split; auto. split; auto.
        intros v' [<-|Hin]; auto.
      * injection Hx as <- <-. auto.
    + destruct (m_opt m); [|injection Hx as <- <-; auto].
      destruct (m_def m) as [d|] eqn:Hm; [|injection Hx as <- <-; auto].
      destruct (e_store E d) eqn:Hst; injection Hx as <- <-; auto. split; [auto|]. split; auto. split; auto.
      intros v' [<-|Hin]; auto. eapply Hd; simpl; eauto.
Qed.

Lemma set_mem_pure n q ms : pure q -> (forall m p, In (m, p) ms -> pure p) -> forall m p, In (m, p) (set_mem n q ms) -> pure p.
Proof.
  intros Hq H m p Hin. apply In_nth_error in Hin. destruct Hin as [i Hi].
  destruct (set_mem_nth _ _ _ _ Hi) as [(mp & _ & _ & He)|Hn]; [injection He as -> ->; auto|].
  eapply H. eapply nth_error_In; eauto.
Qed.

Lemma set_mem_klm n q m p ms : nth_error ms n = Some (m, p) -> kle p q -> klm ms (set_mem n q ms).
Proof.
  intros Hn Hk i mp' Hi. destruct (set_mem_nth _ _ _ _ Hi) as [(mp & -> & Hn' & ->)|Hn']; [|eauto using kle_refl].
  rewrite Hn in Hn'. injection Hn' as <-. exists (m, p). auto.
Qed.

Lemma uni_set_pure cur ms : defaults_made ms -> (forall m p, In (m, p) ms -> pure p) ->
  forall ms' x, uni_set_value E cur ms = (ms', x) ->
  defaults_made ms' /\ (forall m p, In (m, p) ms' -> pure p) /\ klm ms ms' /\
  (cur < List.length ms -> match x with inr (Some v) => made v | inr None => False | inl _ => True end) /\
  List.length ms' = List.length ms.
Proof.
  intros Hd Hs ms' x. unfold uni_set_value. pose proof (klm_refl ms) as Hr. destruct (nth_error ms cur) as [[m p]|] eqn:Hn.
  2:{ intros He; injection He as <- <-. apply nth_error_None in Hn. split; [auto|split; [auto|split; [auto|split; [lia|auto]]]]. }
  pose proof (nth_error_In _ _ Hn) as Hin. pose proof (Hs _ _ Hin) as Hp.
  destruct (is_set p).
  - destruct (pop_value p) as [[v p']|] eqn:Hv; intros He; injection He as <- <-; [|auto 6].
    destruct (pure_pop Hp Hv) as [P1 P2]. split; [apply set_mem_defaults; auto|]. split; [apply set_mem_pure; auto|].
    split; [eapply set_mem_klm; eauto using kle_pop|]. split; [|apply set_mem_length]. destruct (e_store E v) eqn:Hst; auto. intros _. constructor; auto.
  - destruct (m_opt m); [|intros He; injection He as <- <-; auto 6].
    destruct (m_def m) as [d|] eqn:Hm; intros He; injection He as <- <-; [|auto 6].
    split; [auto|]. split; auto. split; auto. split; auto. destruct (e_store E d) eqn:Hst; auto. intros _. constructor. eapply Hd; eauto.
Qed.

Lemma pure_mems p ms : pure p -> match p with PObj _ _ _ ms' _ _ _ | PUni _ _ _ _ _ _ ms' _ _ => ms = ms' | _ => False end ->
  forall m q, In (m, q) ms -> pure q.
Proof.
  intros H Hp m q Hin. apply In_nth_error in Hin. destruct Hin as [i Hi].
  destruct p; try contradiction; subst; apply (@pure_child _ (Mem i) _ H); simpl; rewrite Hi; reflexivity.
Qed.

Lemma pure_obj b k v ms ig ign cb :
  own_made (PObj b k v ms ig ign cb) -> (forall m q, In (m, q) ms -> pure q) -> pure (PObj b k v ms ig ign cb).
Proof.
  intros Ho Hm. constructor; auto. intros [] c; simpl; try discriminate; intros Hc; [|injection Hc as <-; apply pure_ign].
  destruct (nth_error ms n) as [[m q]|] eqn:Hn; [|discriminate]. injection Hc as <-. eapply Hm, nth_error_In; eauto.
Qed.
Lemma pure_uni b st v t tm cur ms ig cb :
  own_made (PUni b st v t tm cur ms ig cb) -> (forall m q, In (m, q) ms -> pure q) -> pure (PUni b st v t tm cur ms ig cb).
Proof.
  intros Ho Hm. constructor; auto. intros [] c; simpl; try discriminate; intros Hc; [|injection Hc as <-; apply pure_ign].
  destruct (nth_error ms n) as [[m q]|] eqn:Hn; [|discriminate]. injection Hc as <-. eapply Hm, nth_error_In; eauto.
Qed.

Lemma same_kind_base p b : same_kind p (with_base p b).
Proof. destruct p; simpl; auto. Qed.
Lemma upd_twice m pi p q q' : get pi (m_root m) = Some p -> same_kind p q -> same_kind p q' ->
  upd (upd m pi q') pi q = upd m pi q.
Proof. intros H K1 K2. unfold upd. simpl. erewrite put_put; eauto. Qed.

(** A Value that is about to be set has a value of the text. *)
Definition ready (p : parser) : Prop := match p with PVal _ _ v _ => made v | _ => True end.

Lemma okf_finish m pi p : inv_ m -> get pi (m_root m) = Some p -> ready p ->
  okf m (Model.finish E pi (upd m pi (set_set true p))).
Proof.
  intros H Hg Hready. unfold Model.finish. apply okf_at. intros p' Hp'.
  assert (Hp : p' = set_set true p).
  { simpl in Hp'. erewrite get_put_same in Hp'; eauto; [congruence|apply same_kind_base]. }
  subst p'. clear Hp'.
  pose proof (pure_get _ (i_pure H) Hg) as Hs. pose proof (pure_own Hs) as Ho.
  assert (Hfree : pure (set_set true p) -> inv_ (upd m pi (set_set true p))).
  { intros Hf. eapply inv_upd; eauto. apply kle_base. }
  pose proof (@kle_upd m pi p (set_set true p) Hg (kle_base _ _)) as Hk0.
  assert (Hup : forall q, same_kind p q -> pure q -> kle p q -> inv_ (upd (upd m pi (set_set true p)) pi q) /\ kle (m_root m) (m_root (upd (upd m pi (set_set true p)) pi q))).
  { intros q K1 K2 K3. erewrite upd_twice; eauto using same_kind_base. split; [eapply inv_upd; eauto|eapply kle_upd; eauto]. }
  assert (Hpops : forall M o m', inv_ m' -> m_root m' = m_root M -> inv_ (pops_eff pi o m') /\ kle (m_root M) (m_root (pops_eff pi o m'))).
  { intros M o m' K1 K2. rewrite <- K2. apply inv_pops; auto. }
  assert (Hno : forall M (o : cbout) m', inv_ m' -> m_root m' = m_root M -> inv_ (no_eff o m') /\ kle (m_root M) (m_root (no_eff o m'))).
  { intros M o m' K1 K2. rewrite <- K2. split; auto. apply kle_refl. }
  destruct p as [b t v cb|b sd st vals e cb|b st key vals e ecb cb|b k v ms ig ign cb|b st v t tm cur ms ig cb|i];
    try destruct b as [bd bs be];
    cbn [set_set with_base base_of b_set b_empty b_disp] in *.
  - assert (K : pure (PVal (mkB bd true be) t v cb)) by (eapply pure_same; [exact Hs|intros _; exact Hready|intros []; reflexivity]).
    eapply okf_from; [exact Hk0|]. apply okf_run_cb; [apply Hfree; exact K| |apply Hno]. intros i. exact Hready.
  - assert (K : pure (PArr (mkB bd true be) sd st vals e cb)) by (eapply pure_same; [exact Hs|exact Ho|intros []; reflexivity]).
    eapply okf_from; [exact Hk0|].
    destruct st; (apply okf_run_cb; [apply Hfree; exact K| |first [apply Hno|apply Hpops]]); intros i.
    + constructor; auto.
    + intros v. apply view_made. exact K.
  - assert (K : pure (PMap (mkB bd true be) st key vals e ecb cb)) by (eapply pure_same; [exact Hs|exact Ho|intros []; reflexivity]).
    eapply okf_from; [exact Hk0|].
    apply okf_run_cb; [apply Hfree; exact K|intros i v; apply view_made; exact K|apply Hpops].
  - pose proof (pure_unset Hs) as Hun. pose proof (@pure_mems _ ms Hs eq_refl) as Hm.
    assert (Hku : kle (PObj (mkB bd bs be) k v ms ig ign cb) (PObj (mkB bd false be) k v ms ig ign cb)) by apply kle_obj, klm_refl.
    destruct be.
    { apply Hup; [simpl; auto|exact Hun|exact Hku]. }
    destruct k.
    + assert (K : pure (PObj (mkB bd true false) OPlain v ms ig ign cb)) by (eapply pure_same; [exact Hs|exact Ho|intros []; reflexivity]).
      destruct (check_members E ms); [apply okf_thr, Hup; [simpl; auto|exact Hun|exact Hku]|].
      eapply okf_from; [exact Hk0|]. apply okf_run_cb; [apply Hfree; exact K|intros i w; apply view_made; exact K|apply Hpops].
    + destruct Ho as [_ Hd]. destruct (set_values E ms) as [ms' [e|vs]] eqn:Hx;
        destruct (set_values_pure Hd Hm Hx) as (K1 & K2 & K4 & K3).
      * apply okf_thr, Hup; [simpl; auto| |apply kle_obj; auto]. apply pure_obj; auto. simpl. split; auto; discriminate.
      * assert (K : made (VTup vs)) by (constructor; auto).
        match goal with |- okf m (run_cb E cb ?a ?f ?t (upd ?m1 pi ?q)) => destruct (Hup q) as [U1 U2] end;
          [simpl; auto|apply pure_obj; [split; simpl; auto|auto]|apply kle_obj; auto|].
        eapply okf_from; [exact U2|]. apply okf_run_cb; [exact U1|intros i; exact K|apply Hno].
    + assert (K : pure (PObj (mkB bd true false) OCustom v ms ig ign cb)) by (eapply pure_same; [exact Hs|exact Ho|intros []; reflexivity]).
      destruct (check_members E ms); [apply okf_thr, Hup; [simpl; auto|exact Hun|exact Hku]|].
      eapply okf_from; [exact Hk0|]. apply okf_run_cb; [apply Hfree; exact K| |].
      * intros i. split; [intros w; apply view_made; exact K|]. destruct Ho as [[o ->] _]. constructor.
      * intros o m' K1 K2. rewrite <- K2. apply inv_cust; auto. rewrite K2. simpl. erewrite get_put_same; eauto; simpl; auto.
  - pose proof (pure_unset Hs) as Hun. pose proof (@pure_mems _ ms Hs eq_refl) as Hm.
    assert (Hku : kle (PUni (mkB bd bs be) st v t tm cur ms ig cb) (PUni (mkB bd false be) st v t tm cur ms ig cb)) by apply kle_uni, klm_refl.
    destruct be.
    { apply Hup; [simpl; auto|exact Hun|exact Hku]. }
    destruct st.
    + destruct Ho as [Ho1 Hd]. destruct (uni_set_value E cur ms) as [ms' [e|o]] eqn:Hx;
        destruct (uni_set_pure _ Hd Hm Hx) as (K1 & K2 & K5 & K3 & K4).
      * apply okf_thr, Hup; [simpl; auto| |apply kle_uni; auto]. apply pure_uni; auto. simpl. rewrite K4. split; auto. intros _; split; [apply Ho1; auto|discriminate].
      * specialize (K3 (proj1 (Ho1 eq_refl))). destruct o as [w|]; [|contradiction].
        match goal with |- okf m (run_cb E cb ?a ?f ?t (upd ?m1 pi ?q)) => destruct (Hup q) as [U1 U2] end;
          [simpl; auto| |apply kle_uni; auto|].
        { apply pure_uni; auto. simpl. rewrite K4. split; auto. intros _; split; auto. apply Ho1; auto. }
        eapply okf_from; [exact U2|]. apply okf_run_cb; [exact U1|intros i; exact K3|apply Hno].
    + assert (K : pure (PUni (mkB bd true false) false v t tm cur ms ig cb)).
      { eapply pure_same; [exact Hs| |intros []; reflexivity]. destruct Ho. split; auto. discriminate. }
      destruct (uni_check cur ms); [apply okf_thr, Hup; [simpl; auto|exact Hun|exact Hku]|].
      eapply okf_from; [exact Hk0|]. apply okf_run_cb; [apply Hfree; exact K|intros i w; apply view_made; exact K|apply Hpops].
  - apply okf_here; [apply Hfree, pure_ign|exact Hk0].
Qed.
(** ** The calls *)
Definition tok_ok (t : token) : Prop := match t with TSc x => SC x | TKey k => KY k | _ => True end.

(** The parser that is called is on top of the stack, or the one on top has a key. *)
Definition pre (c : call) (m : mstate) : Prop :=
  match c with
  | CPop => True
  | CDisp t => tok_ok t
  | COn pi t => tok_ok t /\ match m_stack m with q :: _ => q = pi \/ keyed q (m_root m) | [] => True end
  | CEnd pi => match get pi (m_root m) with Some p => ready p | None => True end
  | CChild pi => keyed pi (m_root m)
  end.

Section Step.
Variable rec : call -> mstate -> res.
Hypothesis IH : forall c m, inv_ m -> pre c m -> okf m (rec c m).

Lemma okf_pop_if d m : inv_ m -> okf m (pop_if_disp g rec d m).
Proof. intros H. unfold pop_if_disp. destruct d; [|apply okf_refl; auto]. apply okf_deref. apply IH; simpl; auto. Qed.

Lemma okf_null m pi p : inv_ m -> get pi (m_root m) = Some p -> okf m (on_null g rec pi p m).
Proof.
  intros H Hg. eapply okf_from; [eapply kle_upd; [exact Hg|apply kle_reset]|]. apply okf_pop_if.
  eapply inv_upd; eauto using kle_reset. apply pure_reset. eapply pure_get; eauto. apply H.
Qed.

(** A parser with no key, or with one, may leave the top of the stack. *)
Lemma inv_push m pi q : inv_ m -> match m_stack m with q :: _ => keyed q (m_root m) | [] => True end -> inv_ (push m (pi ++ [q])%list).
Proof.
  intros [H1 H2 H3] Ht. split; auto. simpl in *. intros sigma Hin. destruct (m_stack m) as [|s0 r]; [destruct Hin|].
  destruct Hin as [<-|Hin]; auto.
Qed.

Lemma okf_member A pi p (ms : list (mspec * A)) ign nm m : inv_ m -> get pi (m_root m) = Some p -> keyed_own p ->
  match m_stack m with q :: _ => q = pi \/ keyed q (m_root m) | [] => True end ->
  okf m (on_member E g pi p ms ign nm m).
Proof.
  intros H Hg Hko Ht. unfold on_member.
  assert (Kl : kle p (set_not_empty p)) by apply kle_base.
  assert (K : inv_ (upd m pi (set_not_empty p))).
  { eapply inv_upd; eauto. apply pure_not_empty. eapply pure_get; eauto. apply H. }
  assert (Kk : kle (m_root m) (m_root (upd m pi (set_not_empty p)))) by (eapply kle_upd; eauto).
  assert (Kt : match m_stack (upd m pi (set_not_empty p)) with q :: _ => keyed q (m_root (upd m pi (set_not_empty p))) | [] => True end).
  { cbn [upd m_stack]. destruct (m_stack m) as [|q r]; auto. apply Kk. destruct Ht as [->|]; auto. unfold keyed. rewrite Hg. auto. }
  destruct (lookup nm ms); [apply okf_deref, okf_here; auto; apply inv_push; auto|].
  destruct ign; [apply okf_deref, okf_here; auto; apply inv_push; auto|]. apply okf_thr; auto.
Qed.

Lemma okf_body c m : inv_ m -> pre c m -> okf m (call_body E g rec c m).
Proof.
  intros H Hpre. destruct c as [|t|pi t|pi|pi]; simpl.
  - unfold body_pop. destruct (m_stack m) as [|q [|q' r]] eqn:Hst; [apply okf_throw; auto| |].
    + apply okf_here; [|apply kle_refl]. destruct H as [H1 H2 H3]. split; auto; simpl; intros sigma [].
    + apply okf_from with (m1 := set_stack m (q' :: r)); [apply kle_refl|].
      destruct H as [H1 H2 H3]. rewrite Hst in H3. simpl in H3. apply IH; [split; auto; simpl; intros; apply H3; auto|].
      simpl. apply H3; auto.
  - unfold body_disp. destruct (m_stack m) eqn:Hst; [apply okf_throw; auto|]. apply IH; auto. simpl in *. rewrite Hst. auto.
  - destruct Hpre as [Htok Htop]. unfold body_on. apply okf_at. intros p Hg.
    pose proof (pure_get _ (i_pure H) Hg) as Hs. pose proof (pure_own Hs) as Ho.
    assert (Hup : forall q, pure q -> kle p q -> inv_ (upd m pi q) /\ kle (m_root m) (m_root (upd m pi q))).
    { intros q K1 K2. split; [eapply inv_upd; eauto|eapply kle_upd; eauto]. }
    assert (Hok : forall q, pure q -> kle p q -> okf m (ROk (upd m pi q))) by (intros q K1 K2; apply Hup; auto).
    assert (Hend : forall q, pure q -> kle p q -> same_kind p q -> ready q -> okf m (rec (CEnd pi) (upd m pi q))).
    { intros q K1 K2 K3 K4. destruct (Hup q K1 K2) as [U1 U2]. eapply okf_from; [exact U2|]. apply IH; auto. simpl.
      rewrite (@get_put_same pi _ p q Hg K3). exact K4. }
    assert (Htop' : keyed_own p -> match m_stack m with q :: _ => keyed q (m_root m) | [] => True end).
    { intros K. destruct (m_stack m); auto. destruct Htop as [->|]; auto. unfold keyed. rewrite Hg. auto. }
    pose proof (okf_null _ H Hg) as Hnull. pose proof (pure_reset Hs) as Hrs. pose proof (okf_throw (unexpected_token t) H) as Hthrow.
    pose proof (kle_reset p) as Hkr.
    destruct p as [b ty v cb|b sd st vals e cb|b st key vals e ecb cb|b k v ms ig ign cb|b st v ty tm cur ms ig cb|i].
    + unfold on_val. destruct t; try exact Hthrow; auto.
      destruct (takes_scalar ty x) eqn:Hx; [|exact Hthrow]. simpl in Htok.
      apply Hend; [eapply pure_same; [exact Hs|intros _; constructor; auto|intros []; reflexivity]|apply kle_same; simpl; auto; intros []; reflexivity|simpl; auto|constructor; auto].
    + assert (Henter : okf m (arr_enter g rec pi (PArr b sd st vals e cb) t m)).
      { unfold arr_enter. apply okf_deref. set (q := set_not_empty _).
        assert (Hpq : pure q).
        { apply pure_not_empty. constructor; [exact Ho|]. intros [] c; simpl; try discriminate. intros Hc. injection Hc as <-.
          apply pure_set_disp. apply (@pure_child _ Elem _ Hs). reflexivity. }
        assert (Hkq : kle (PArr b sd st vals e cb) q).
        { eapply kle_elem; [reflexivity|reflexivity|apply kle_set_disp|simpl; auto|]. intros [] K; try reflexivity. destruct (K eq_refl). }
        destruct (Hup q Hpq Hkq) as [U1 U2]. apply okf_from with (m1 := push (upd m pi q) (pi ++ [Elem])%list); [exact U2|].
        apply IH.
        - apply inv_push; auto. cbn [upd m_stack]. specialize (Htop' I). destruct (m_stack m); auto.
        - split; auto. simpl. auto. }
      unfold on_arr. destruct t; try exact Hthrow.
      * destruct sd; [|auto]. apply IH; auto. split; [exact I|]. specialize (Htop' I). destruct (m_stack m); auto.
      * destruct sd; [|exact Hthrow]. apply okf_bind.
        { apply IH; auto. split; [exact Htok|]. specialize (Htop' I). destruct (m_stack m); auto. }
        intros m1 K1 K2. apply okf_at. intros p1 Hp1.
        assert (Hk1 : keyed pi (m_root m1)) by (apply K2; unfold keyed; rewrite Hg; exact I).
        eapply okf_from; [eapply kle_upd; [exact Hp1|apply kle_base]|]. apply IH.
        -- eapply inv_upd; eauto; [apply pure_not_empty; exact (pure_get _ (i_pure K1) Hp1)|apply kle_base].
        -- simpl. eapply kle_put; [exact Hp1|apply kle_base|exact Hk1].
      * destruct sd; [|exact Hthrow]. auto.
      * destruct sd; [auto|]. cbn [reset] in Hrs, Hkr |- *. apply Hok.
        -- eapply pure_same; [exact Hrs|apply (pure_own Hrs)|intros []; reflexivity].
        -- eapply kle_trans; [exact Hkr|]. apply kle_same; simpl; auto; intros []; reflexivity.
      * apply Hend; [eapply pure_same; [exact Hs|exact Ho|intros []; reflexivity]|apply kle_same; simpl; auto; intros []; reflexivity|simpl; auto|exact I].
    + unfold on_map. destruct t; try exact Hthrow; auto.
      * apply okf_deref. set (q := set_not_empty _).
        assert (Hpq : pure q) by (apply pure_not_empty; eapply pure_same; [exact Hs|exact Ho|intros []; reflexivity]).
        assert (Hkq : kle (PMap b st key vals e ecb cb) q) by (apply kle_same; [intros _; exact Htok|intros []; reflexivity]).
        destruct (Hup q Hpq Hkq) as [U1 U2]. apply okf_here; [|exact U2]. apply inv_push; auto. cbn [upd m_stack].
        destruct (m_stack m) as [|s0 r]; auto. destruct Htop as [->|K]; [|apply U2, K].
        unfold keyed. simpl. rewrite (@get_put_same pi _ _ q Hg) by (simpl; auto). exact Htok.
      * apply IH; auto. simpl. rewrite Hg. exact I.
    + unfold on_obj. destruct t; try exact Hthrow; auto.
      * apply okf_member; auto. exact I.
      * apply IH; auto. simpl. rewrite Hg. exact I.
    + unfold on_uni. destruct t; try exact Hthrow; auto.
      * destruct (takes_scalar ty x); [|exact Hthrow].
        set (p1 := reset (PUni b st v ty tm cur ms ig cb)) in *.
        destruct (Hup p1 Hrs Hkr) as [K1 Kk1].
        assert (K2 : get pi (m_root (upd m pi p1)) = Some p1).
        { simpl. eapply get_put_same; eauto. simpl; auto. }
        assert (Ht1 : match m_stack (upd m pi p1) with q :: _ => q = pi \/ keyed q (m_root (upd m pi p1)) | [] => True end).
        { cbn [upd m_stack]. destruct (m_stack m); auto. destruct Htop; auto. }
        pose proof (@okf_member _ pi p1 ms false x _ K1 K2 I Ht1) as K3. unfold on_member in *.
        destruct (lookup x ms) as [i|] eqn:Hl; [|eapply okf_from; [exact Kk1|exact K3]].
        unfold deref in *. destruct (disp_of p1) as [d|]; [|exact I]. destruct (Nat.eqb d g); [|exact I].
        cbn [bind]. apply okf_at. intros p2 Hp2. cbn [okf] in K3. destruct K3 as [K3 K3'].
        assert (K4 : p2 = set_not_empty p1).
        { unfold push, set_stack, upd in Hp2. cbn [m_root] in Hp2. cbn [upd m_root] in K2. rewrite (@get_put_same pi _ p1 (set_not_empty p1) K2) in Hp2 by (simpl; auto). congruence. }
        subst p2. simpl.
        match goal with |- inv_ (upd ?m2 pi ?q2) /\ _ => assert (Kq : pure q2 /\ kle (set_not_empty p1) q2) end.
        { split; [|apply kle_same; simpl; auto; intros []; reflexivity].
          eapply pure_same; [exact Hrs| |intros []; reflexivity].
          pose proof (pure_own Hrs) as [_ Hd]. simpl. split; [|exact Hd]. intros Hst. split; [|discriminate].
          rewrite map_length. eapply lookup_lt; eauto. }
        destruct Kq as [Kq1 Kq2]. split; [eapply inv_upd; [exact K3|exact Hp2|exact Kq1|exact Kq2]|].
        eapply kle_trans; [exact Kk1|]. eapply kle_trans; [exact K3'|]. eapply kle_upd; [exact Hp2|exact Kq2].
      * destruct (String.eqb tm ""); [apply okf_throw; auto|]. apply Hok; auto.
      * destruct (String.eqb tm ""); [apply okf_throw; auto|]. destruct (String.eqb k tm); [apply okf_refl; auto|apply okf_throw; auto].
      * apply IH; auto. simpl. rewrite Hg. exact I.
    + unfold on_ign.
      assert (Hig : forall st, kle (PIgn i) (PIgn (mkI (ig_b i) st))) by (intros st; apply kle_same; simpl; auto; intros []; reflexivity).
      assert (Hst : okf m (ROk m)) by (apply okf_refl; auto).
      destruct t; auto; try (apply Hok; [apply pure_ign|apply Hig]).
      * destruct (ig_st i); [|exact Hst]. apply IH; auto. simpl. rewrite Hg. exact I.
      * destruct (ig_st i) as [|[] r]; first [exact Hst|exact Hthrow].
      * destruct (ig_st i) as [|[] [|]]; try exact Hthrow; [apply Hend; [apply pure_ign|apply Hig|simpl; auto|exact I]|apply Hok; [apply pure_ign|apply Hig]].
      * destruct (ig_st i) as [|[] [|]]; try exact Hthrow; [apply Hend; [apply pure_ign|apply Hig|simpl; auto|exact I]|apply Hok; [apply pure_ign|apply Hig]].
  - unfold body_end. apply okf_at. intros p Hg. simpl in Hpre. rewrite Hg in Hpre. apply okf_bind; [apply okf_finish; auto|].
    intros m2 K2 _. apply okf_at. intros p2 _. apply okf_pop_if; auto.
  - unfold body_child. apply okf_at. intros p Hg. simpl in Hpre. unfold keyed in Hpre. rewrite Hg in Hpre.
    destruct p as [b ty v cb|b sd st vals e cb|b st key vals e ecb cb|b k v ms ig ign cb|b st v ty tm cur ms ig cb|i]; try (apply okf_refl; auto; fail).
    + pose proof (pure_get _ (i_pure H) Hg) as Hs. pose proof (pure_own Hs) as Ho.
      destruct st; [|apply okf_refl; auto]. destruct (pop_value e) as [[v e']|] eqn:Hp; [|apply okf_throw; auto].
      destruct (@pure_pop e v e') as [P1 P2]; auto. { apply (@pure_child _ Elem _ Hs). reflexivity. }
      assert (Hc : forall vals', own_made (PArr b sd true vals' e' cb) ->
        inv_ (upd m pi (PArr b sd true vals' e' cb)) /\ kle (m_root m) (m_root (upd m pi (PArr b sd true vals' e' cb)))).
      { intros vals' K. assert (Kk : kle (PArr b sd true vals e cb) (PArr b sd true vals' e' cb)).
        { eapply kle_elem; [reflexivity|reflexivity|eapply kle_pop; eauto|simpl; auto|]. intros [] K'; try reflexivity. destruct (K' eq_refl). }
        split; [|eapply kle_upd; eauto]. eapply inv_upd; eauto. constructor; auto. intros [] c; simpl; try discriminate. intros Hc. injection Hc as <-. auto. }
      destruct (e_store E v) eqn:Hst; [apply okf_thr|]; (apply Hc; simpl in *; auto).
      intros v' Hin. apply in_app_iff in Hin. destruct Hin as [Hin|[<-|[]]]; auto.
    + pose proof (pure_get _ (i_pure H) Hg) as Hs. apply okf_bind.
      * apply okf_run_cb; auto.
        -- intros i. split; [exact Hpre|]. intros v. apply view_made. apply (@pure_child _ Elem _ Hs). reflexivity.
        -- intros o m' K1 K2. rewrite <- K2. apply inv_pops; auto.
      * intros m1 K1 Kk1. destruct st; [|apply okf_refl; auto]. apply okf_at. intros p1 Hp1.
        assert (Hk1 : keyed pi (m_root m1)) by (apply Kk1; unfold keyed; rewrite Hg; exact Hpre). unfold keyed in Hk1. rewrite Hp1 in Hk1.
        destruct p1 as [|?|b1 st1 key1 vals1 e1 ecb1 cb1| | |]; try (apply okf_refl; auto; fail).
        destruct (pop_value e1) as [[v e']|] eqn:Hp; [|apply okf_throw; auto].
        pose proof (pure_get _ (i_pure K1) Hp1) as Hs1. pose proof (pure_own Hs1) as Ho1.
        destruct (@pure_pop e1 v e') as [P1 P2]; auto. { apply (@pure_child _ Elem _ Hs1). reflexivity. }
        assert (Hc : forall vals', own_made (PMap b1 st1 key1 vals' e' ecb1 cb1) ->
          inv_ (upd m1 pi (PMap b1 st1 key1 vals' e' ecb1 cb1)) /\ kle (m_root m1) (m_root (upd m1 pi (PMap b1 st1 key1 vals' e' ecb1 cb1)))).
        { intros vals' K. assert (Kk : kle (PMap b1 st1 key1 vals1 e1 ecb1 cb1) (PMap b1 st1 key1 vals' e' ecb1 cb1)).
          { eapply kle_elem; [reflexivity|reflexivity|eapply kle_pop; eauto|simpl; auto|]. intros [] K'; try reflexivity. destruct (K' eq_refl). }
          split; [|eapply kle_upd; eauto]. eapply inv_upd; eauto. constructor; auto. intros [] c; simpl; try discriminate. intros Hc. injection Hc as <-. auto. }
        destruct (e_store E v) eqn:Hst; [apply okf_thr|]; (apply Hc; simpl in *; auto).
        intros k' v' Hin. eapply insert_made; [| | |exact Hin]; auto.
    + apply okf_bind; [apply IH; auto; simpl; rewrite Hg; exact I|]. intros m1 K1 _. destruct (String.eqb tm ""); [|apply okf_refl; auto].
      apply okf_at. intros p1 _. apply okf_deref. apply IH; simpl; auto.
Qed.
End Step.

Lemma okf_fault c m x m' : inv_ m -> In m' (faults g c m) -> okf m (RThrow x m').
Proof.
  intros H Hin.
  assert (Hup : forall pi p q, get pi (m_root m) = Some p -> pure q -> kle p q -> left_ (upd m pi q)).
  { intros pi p q Hg K1 K2. apply inv_left. eapply inv_upd; eauto. }
  apply (@faults_cases g (fun m' => left_ m') c m m' Hin); intros;
    try (apply inv_left; assumption);
    try match goal with |- left_ (push ?m1 _) => change (left_ m1) end;
    (eapply Hup; [eassumption|apply pure_not_empty|eapply kle_trans; [|apply kle_base]]);
    match goal with Hg : get _ _ = Some _ |- _ => pose proof (pure_get _ (i_pure H) Hg) as Hs end;
    auto using pure_reset, kle_refl, kle_reset.
  - constructor; [exact (pure_own Hs)|]. intros [] d; simpl; try discriminate. intros Hc. injection Hc as <-.
    apply pure_set_disp. apply (@pure_child _ Elem _ Hs). reflexivity.
  - eapply kle_elem; [reflexivity|reflexivity|apply kle_set_disp|simpl; auto|]. intros [] K; try reflexivity. destruct (K eq_refl).
Qed.
End Run.

Lemma okf_exec E g l0 f : forall c m, inv_ l0 m -> pre c m -> okf l0 m (exec E g f c m).
Proof.
  induction f as [|f IH]; intros c m H Hp; [exact I|]. cbn [exec]. apply body_cases.
  - intros E' _ _ _. apply okf_body; auto.
  - intros x m' Hin. eapply okf_fault; eauto.
Qed.

Lemma okf_run E g l0 ts : forall m, inv_ l0 m -> Forall tok_ok ts -> okf l0 m (run E g ts m).
Proof.
  induction ts as [|t ts IH]; simpl; intros m H Ht; [apply okf_refl; auto|]. inversion Ht; subst.
  apply okf_bind; auto. apply okf_exec; auto.
Qed.
End From.
