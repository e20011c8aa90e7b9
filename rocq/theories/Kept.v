(** A stored value never contains a value whose storing threw: for every declaration, in
    every state any calls can lead to, with any texts, callbacks and value types. *)

From Verif Require Import Spec Model Infra Total Safe Refine Main Closed Accept Access Typed.
Local Open Scope string_scope.
Set Implicit Arguments.

Section Kept.
(** [ok v]: [v] may be stored. *)
Variable ok : value -> Prop.

(** Every element of a std::vector, std::map, std::tuple or std::variant that the library
    has put together may be stored, and so on inside the elements.  What is inside a
    value of a user's type ([VCust]) is the user's. *)
Inductive all_kept : value -> Prop :=
| kp_sc x : all_kept (VSc x)
| kp_vec vs : (forall v, In v vs -> ok v /\ all_kept v) -> all_kept (VVec vs)
| kp_map kvs : (forall k v, In (k, v) kvs -> ok v /\ all_kept v) -> all_kept (VMap kvs)
| kp_tup vs : (forall v, In v vs -> ok v /\ all_kept v) -> all_kept (VTup vs)
| kp_var i v : ok v -> all_kept v -> all_kept (VVar i v)
| kp_cust o : all_kept (VCust o).

(** ** The invariant *)
Definition defaults_kept A (ms : list (mspec * A)) : Prop :=
  forall m c d, In (m, c) ms -> m_def m = Some d -> all_kept d.

Definition own_kept (p : parser) : Prop :=
  match p with
  | PVal _ _ v _ => exists x, v = VSc x
  | PArr _ _ _ vals _ _ => forall v, In v vals -> ok v /\ all_kept v
  | PMap _ _ _ vals _ _ _ => forall k v, In (k, v) vals -> ok v /\ all_kept v
  | PObj b k v ms _ _ _ =>
      match k with
      | OPlain => True
      | OAuto => b_set b = true -> all_kept v
      | OCustom => exists o, v = VCust o
      end /\ defaults_kept ms
  | PUni b st v _ _ cur ms _ _ =>
      (st = true -> cur < List.length ms /\ (b_set b = true -> all_kept v)) /\ defaults_kept ms
  | PIgn _ => True
  end.

Inductive sane : parser -> Prop :=
  sane_intro p : own_kept p -> (forall sp c, child p sp = Some c -> sane c) -> sane p.

Lemma sane_own p : sane p -> own_kept p.
Proof. destruct 1; auto. Qed.
Lemma sane_child p sp c : sane p -> child p sp = Some c -> sane c.
Proof. destruct 1; eauto. Qed.

Lemma sane_get pi : forall p q, sane p -> get pi p = Some q -> sane q.
Proof.
  induction pi as [|sp pi IH]; simpl; intros p q H Hg; [congruence|].
  destruct (child p sp) eqn:Hc; [|discriminate]. eauto using sane_child.
Qed.

Lemma sane_ign i : sane (PIgn i).
Proof. constructor; simpl; auto. intros [] c; discriminate. Qed.

Lemma nth_set_nth_eq A n (x : A) l i : nth_error (set_nth n x l) i =
  if Nat.eqb i n then (if Nat.ltb n (List.length l) then Some x else None) else nth_error l i.
Proof.
  revert l i. induction n as [|n IH]; intros [|y l] [|i]; simpl; auto.
  - destruct (Nat.eqb i n); auto.
  - rewrite IH. destruct (Nat.eqb i n); auto.
Qed.

Lemma set_mem_nth n q ms i c : nth_error (set_mem n q ms) i = Some c ->
  (exists mp, i = n /\ nth_error ms n = Some mp /\ c = (fst mp, q)) \/ nth_error ms i = Some c.
Proof.
  unfold set_mem. destruct (nth_error ms n) as [mp|] eqn:Hn; auto.
  rewrite nth_set_nth_eq. destruct (Nat.eqb i n) eqn:Hi; auto. apply Nat.eqb_eq in Hi. subst i.
  destruct (Nat.ltb n (List.length ms)); [|discriminate]. intros H. injection H as <-. left. eauto.
Qed.

Lemma set_mem_defaults n q ms : defaults_kept ms -> defaults_kept (set_mem n q ms).
Proof.
  intros H m c d Hin Hd. apply In_nth_error in Hin. destruct Hin as [i Hi].
  destruct (set_mem_nth _ _ _ _ Hi) as [([m' c'] & _ & Hn & He)|Hn].
  - injection He as -> ->. eapply H; eauto. eapply nth_error_In; eauto.
  - eapply H; eauto. eapply nth_error_In; eauto.
Qed.

Lemma sane_set_child p sp c q : sane p -> child p sp = Some c -> sane q -> sane (set_child p sp q).
Proof.
  intros H Hc Hq. pose proof (sane_own H) as Ho. constructor.
  - destruct p, sp; simpl in *; auto; destruct Ho; split; auto using set_mem_defaults. rewrite set_mem_length; auto.
  - intros sp' c' Hc'. pose proof (fun sp c => @sane_child _ sp c H) as K.
    destruct p, sp; simpl in *; try discriminate; destruct sp' as [|n'|]; simpl in *; try discriminate;
      try (injection Hc' as <-; auto using sane_ign; fail).
    + destruct (nth_error (set_mem n q ms) n') as [mp|] eqn:Hn; [|discriminate]. injection Hc' as <-.
      destruct (set_mem_nth _ _ _ _ Hn) as [(mp' & _ & _ & ->)|Hn']; auto.
      apply (K (Mem n')). simpl. rewrite Hn'. auto.
    + apply (K (Mem n')). auto.
    + destruct (nth_error (set_mem n q ms) n') as [mp|] eqn:Hn; [|discriminate]. injection Hc' as <-.
      destruct (set_mem_nth _ _ _ _ Hn) as [(mp' & _ & _ & ->)|Hn']; auto.
      apply (K (Mem n')). simpl. rewrite Hn'. auto.
    + apply (K (Mem n')). auto.
Qed.

Lemma sane_put pi : forall p q c, sane p -> get pi p = Some c -> sane q -> sane (put pi q p).
Proof.
  induction pi as [|sp pi IH]; simpl; intros p q c H Hg Hq; auto.
  destruct (child p sp) as [x|] eqn:Hx; [|discriminate].
  eapply sane_set_child; eauto using sane_child.
Qed.

(** The same children, and a fitting own_kept part. *)
Lemma sane_same p q : sane p -> own_kept q -> (forall sp, child q sp = child p sp) -> sane q.
Proof. intros H Ho Hc. constructor; auto. intros sp c. rewrite Hc. eauto using sane_child. Qed.

Lemma sane_with_base p b : sane p -> (b_set b = true -> b_set (base_of p) = true) -> sane (with_base p b).
Proof.
  intros H Hb. pose proof (sane_own H) as Ho. destruct p; simpl in *;
    try (eapply sane_same; [exact H|simpl; auto|intros []; reflexivity]; fail).
  - eapply sane_same; [exact H| |intros []; reflexivity]. simpl. destruct Ho. split; auto. destruct k; auto.
  - eapply sane_same; [exact H| |intros []; reflexivity]. simpl. destruct Ho as [Ho1 Ho2]. split; auto.
    intros Hs. destruct (Ho1 Hs). auto.
Qed.

Lemma sane_unset p : sane p -> sane (set_set false p).
Proof. intros H. apply sane_with_base; auto. simpl. discriminate. Qed.
Lemma sane_not_empty p : sane p -> sane (set_not_empty p).
Proof. intros H. apply sane_with_base; auto. Qed.

Lemma nth_map A B (f : A -> B) l n : nth_error (map f l) n = option_map f (nth_error l n).
Proof. revert n; induction l; intros [|n]; simpl; auto. Qed.

Lemma defaults_map A B (f : A -> B) (ms : list (mspec * A)) :
  defaults_kept ms -> defaults_kept (map (fun mp => (fst mp, f (snd mp))) ms).
Proof.
  intros H m c d Hin. apply in_map_iff in Hin. destruct Hin as ([m' c'] & He & Hin). injection He as <- <-. eauto.
Qed.

Lemma sane_set_disp d p : sane p -> sane (set_disp d p).
Proof.
  induction 1 as [p Ho Hc IH]. constructor.
  - destruct p; simpl in *; auto; destruct Ho; split; auto; try (apply (@defaults_map _ _ (set_disp d)); auto).
    rewrite map_length; auto.
  - intros sp c. destruct p, sp; simpl in *; try discriminate.
    + apply (Hc Elem).
    + intros H. injection H as <-. apply (IH Elem). reflexivity.
    + rewrite nth_map. destruct (nth_error ms n) as [mp|] eqn:Hn; simpl; [|discriminate].
      intros H. injection H as <-. apply (IH (Mem n)). simpl. rewrite Hn. auto.
    + intros H. injection H as <-. apply sane_ign.
    + rewrite nth_map. destruct (nth_error ms n) as [mp|] eqn:Hn; simpl; [|discriminate].
      intros H. injection H as <-. apply (IH (Mem n)). simpl. rewrite Hn. auto.
    + intros H. injection H as <-. apply sane_ign.
Qed.

Lemma sane_reset p : sane p -> sane (reset p).
Proof.
  induction 1 as [p Ho Hc IH]. constructor.
  - destruct p; cbn [reset own_kept b_set reset_base] in *; auto.
    + destruct store; auto. intros v [].
    + destruct store; auto. intros k v [].
    + destruct Ho. split; [|apply (@defaults_map _ _ reset); auto]. destruct k; auto; [discriminate|].
      simpl. eauto.
    + destruct Ho as [Ho1 Ho2]. split; [|apply (@defaults_map _ _ reset); auto]. rewrite map_length.
      intros Hs. destruct (Ho1 Hs). split; [lia|discriminate].
  - intros sp c. destruct p, sp; cbn [reset child] in *; try discriminate.
    + intros H. injection H as <-. apply (IH Elem). reflexivity.
    + apply (Hc Elem).
    + rewrite nth_map. destruct (nth_error ms n) as [mp|] eqn:Hn; simpl; [|discriminate].
      intros H. injection H as <-. apply (IH (Mem n)). simpl. rewrite Hn. auto.
    + intros H. injection H as <-. apply sane_ign.
    + rewrite nth_map. destruct (nth_error ms n) as [mp|] eqn:Hn; simpl; [|discriminate].
      intros H. injection H as <-. apply (IH (Mem n)). simpl. rewrite Hn. auto.
    + intros H. injection H as <-. apply sane_ign.
Qed.

Lemma sane_unset_at p rel : sane p -> sane (unset_at p rel).
Proof.
  intros H. unfold unset_at. destruct (get rel p) as [q|] eqn:Hq; auto.
  destruct (stored q); auto. eapply sane_put; eauto. apply sane_unset. eapply sane_get; eauto.
Qed.

Lemma sane_pops rels : forall p, sane p -> sane (apply_pops rels p).
Proof. induction rels as [|r rels IH]; intros p H; simpl; auto. apply IH, sane_unset_at; auto. Qed.

Lemma sane_value p v : sane p -> get_value p = Some v -> all_kept v.
Proof.
  intros H. apply sane_own in H. unfold get_value, is_set. destruct p; simpl in *.
  - destruct (b_set b); [|discriminate]. intros Hv. injection Hv as <-. destruct H as [x ->]. constructor.
  - destruct (b_set b); [|discriminate]. destruct store; [|discriminate]. intros Hv. injection Hv as <-. constructor; auto.
  - destruct (b_set b); [|discriminate]. destruct store; [|discriminate]. intros Hv. injection Hv as <-. constructor; auto.
  - destruct (b_set b) eqn:Hb; [|discriminate]. destruct k; [discriminate| |]; intros Hv; injection Hv as <-.
    + apply H; auto.
    + destruct H as [[o ->] _]. constructor.
  - destruct (b_set b) eqn:Hb; [|discriminate]. destruct store; [|discriminate]. intros Hv. injection Hv as <-. destruct H as [H _]. destruct (H eq_refl); auto.
  - destruct (b_set (ig_b i)); discriminate.
Qed.

Lemma sane_pop p v q : sane p -> pop_value p = Some (v, q) -> all_kept v /\ sane q.
Proof.
  unfold pop_value. intros H. destruct (get_value p) eqn:Hv; [|discriminate]. intros He. injection He as <- <-.
  split; [eapply sane_value; eauto|apply sane_unset; auto].
Qed.

(** Declarations whose default values are all_kept. *)
Inductive defaults_fine : schema -> Prop :=
| go_val t cb : defaults_fine (SVal t cb)
| go_arr st e cb : defaults_fine e -> defaults_fine (SArr st e cb)
| go_map st e ecb cb : defaults_fine e -> defaults_fine (SMp st e ecb cb)
| go_obj k ms ign cb : Forall (fun mp => defaults_fine (snd mp)) ms -> defaults_kept ms -> defaults_fine (SObj k ms ign cb)
| go_uni st t tm ms cb : Forall (fun mp => defaults_fine (snd mp)) ms -> defaults_kept ms -> (st = true -> ms <> []) -> defaults_fine (SUni st t tm ms cb)
| go_ign : defaults_fine SIgn.

Lemma sane_mk s : defaults_fine s -> sane (mk s).
Proof.
  induction s as [| | | k ms ign cb IH | st t tm ms cb IH |] using schema_ind'; intros H; inversion H; subst; constructor;
    try (simpl; eauto; fail); try (intros [] c; simpl; try discriminate; intros Hc; injection Hc as <-; auto; fail).
  - simpl. intros v [].
  - simpl. intros k v [].
  - cbn [mk own_kept]. split; [|apply (@defaults_map _ _ mk); auto]. destruct k; simpl; eauto; discriminate.
  - intros [] c; simpl; try discriminate; [|intros Hc; injection Hc as <-; apply sane_ign].
    rewrite nth_map. destruct (nth_error ms n) as [mp|] eqn:Hn; simpl; [|discriminate]. intros Hc. injection Hc as <-.
    apply nth_error_In in Hn. rewrite Forall_forall in *. auto.
  - cbn [mk own_kept]. split; [|apply (@defaults_map _ _ mk); auto]. rewrite map_length.
    intros Hs. split; [|discriminate]. destruct ms; simpl; [|lia].
    match goal with H : st = true -> _ |- _ => exfalso; apply (H Hs eq_refl) end.
  - intros [] c; simpl; try discriminate; [|intros Hc; injection Hc as <-; apply sane_ign].
    rewrite nth_map. destruct (nth_error ms n) as [mp|] eqn:Hn; simpl; [|discriminate]. intros Hc. injection Hc as <-.
    apply nth_error_In in Hn. rewrite Forall_forall in *. auto.
Qed.

Lemma insert_kept k v (l : list (string * value)) : ok v -> all_kept v -> (forall k v, In (k, v) l -> ok v /\ all_kept v) ->
  forall k' v', In (k', v') (std_insert k v l) -> ok v' /\ all_kept v'.
Proof.
  intros H1 H2. induction l as [|[k1 v1] l IH]; simpl; intros H k' v' Hin.
  - destruct Hin as [He|[]]. injection He as <- <-. auto.
  - destruct (String.eqb k k1); [eapply H; eauto|]. destruct (str_less k k1); simpl in Hin.
    + destruct Hin as [He|Hin]; [injection He as <- <-; auto|eauto].
    + destruct Hin as [He|Hin]; [injection He as <- <-; eapply H; eauto|]. apply IH with (k' := k'); auto. intros; eapply H; eauto.
Qed.

(** What callbacks are told. *)
Definition told_kept (e : event) : Prop := match e with Ev _ (OVal v) => all_kept v | _ => True end.

(** ** Runs *)
Section Run.
Variable E : env.
Variable g : nat.
Hypothesis Hok : forall v, e_store E v = None -> ok v.
Variable l0 : list event.

Definition snd_ (m : mstate) : Prop := sane (m_root m) /\ exists l, m_log m = (l0 ++ l)%list /\ Forall told_kept l.
Definition oks (r : res) : Prop := match r with ROk m | RThrow _ m => snd_ m | _ => True end.

Lemma oks_bind r k : oks r -> (forall m, snd_ m -> oks (k m)) -> oks (bind r k).
Proof. destruct r; simpl; auto. Qed.
Lemma oks_at m pi k : (forall p, get pi (m_root m) = Some p -> oks (k p)) -> oks (at_node m pi k).
Proof. unfold at_node. destruct (get pi (m_root m)); simpl; auto. Qed.
Lemma oks_deref d r : oks r -> oks (deref g d r).
Proof. unfold deref. destruct d; simpl; auto. destruct (Nat.eqb n g); simpl; auto. Qed.
Lemma snd_upd m pi p q : snd_ m -> get pi (m_root m) = Some p -> sane q -> snd_ (upd m pi q).
Proof. intros [H1 H2] Hg Hr. split; auto. simpl. eapply sane_put; eauto. Qed.
Lemma snd_log m e : snd_ m -> told_kept e -> snd_ (add_log m e).
Proof.
  intros [H1 (l & H2 & H3)] He. split; auto. exists (l ++ [e])%list. simpl. rewrite H2, app_assoc.
  split; auto. apply Forall_app; auto.
Qed.
Lemma snd_away rels : forall m, snd_ m -> snd_ (away rels m).
Proof.
  unfold away. induction rels as [|rel rels IH]; intros m H; simpl; auto. apply IH.
  destruct H as [H1 H2]. split; auto. apply (@sane_unset_at (m_root m) rel); exact H1.
Qed.

Lemma oks_run_cb c a eff msg m :
  snd_ m -> (forall i, told_kept (Ev i (obs_of a))) ->
  (forall o m', snd_ m' -> m_root m' = m_root m -> snd_ (eff o m')) -> oks (run_cb E c a eff msg m).
Proof.
  intros H Ha He. unfold run_cb. destruct c as [c|]; [|auto].
  set (o := e_cb E c (m_log m) (m_root m) a).
  assert (K : snd_ (eff o (add_log m (Ev c (obs_of a))))) by (apply He; auto using snd_log).
  assert (K' : snd_ (away (co_away o) (eff o (add_log m (Ev c (obs_of a)))))) by (apply snd_away; exact K).
  destruct (co_res o); auto.
Qed.

Lemma snd_pops pi o m : snd_ m -> snd_ (pops_eff pi o m).
Proof.
  intros H. unfold pops_eff. destruct (get pi (m_root m)) eqn:Hg; auto.
  eapply snd_upd; eauto. apply sane_pops. eapply sane_get; eauto. apply H.
Qed.

Lemma snd_cust pi o m : snd_ m ->
  match get pi (m_root m) with Some (PObj _ k _ _ _ _ _) => k = OCustom | _ => True end ->
  snd_ (cust_eff pi o m).
Proof.
  intros H. unfold cust_eff. destruct (get pi (m_root m)) as [[]|] eqn:Hg; auto. intros ->.
  pose proof (sane_get _ (proj1 H) Hg) as Hs. eapply snd_upd; eauto. apply sane_pops.
  eapply sane_same; [exact Hs| |intros []; reflexivity]. destruct (sane_own Hs). split; auto.
  destruct (co_new o); eauto.
Qed.

Lemma set_values_sane ms : defaults_kept ms -> (forall m p, In (m, p) ms -> sane p) ->
  forall ms' x, set_values E ms = (ms', x) ->
  defaults_kept ms' /\ (forall m p, In (m, p) ms' -> sane p) /\
  match x with inl _ => True | inr vs => forall v, In v vs -> ok v /\ all_kept v end.
Proof.
  induction ms as [|[m p] r IH]; simpl; intros Hd Hs ms' x Hx.
  - injection Hx as <- <-. split; [auto|]. split; auto. intros v [].
  - destruct (set_values E r) as [r'' y] eqn:Hy.
    assert (Hd' : defaults_kept r) by (intros m1 c1 d1 K; apply (Hd m1 c1 d1); simpl; auto).
    destruct (IH Hd' ltac:(eauto) _ _ eq_refl) as (K1 & K2 & K3).
    assert (Hp : sane p) by (eapply Hs; eauto).
    assert (G : forall p', sane p' -> defaults_kept ((m, p') :: r'') /\ (forall m0 p0, In (m0, p0) ((m, p') :: r'') -> sane p0)).
    { intros p' Hp'. split.
      - intros m0 c d [He|Hin] Hm; [injection He as <- <-; eapply Hd; simpl; eauto|eauto].
      - intros m0 p0 [He|Hin]; [injection He as <- <-; auto|eauto]. }
    destruct y as [e|vs]; [injection Hx as <- <-; destruct (G p Hp); auto|].
    destruct (is_set p).
    + destruct (pop_value p) as [[v p']|] eqn:Hv.
      * destruct (sane_pop Hp Hv) as [P1 P2]. destruct (G p' P2).
        destruct (e_store E v) eqn:Hst; injection Hx as <- <-; auto. split; [auto|]. split; auto.
        intros v' [<-|Hin]; auto.
      * injection Hx as <- <-. destruct (G p Hp); auto.
    + destruct (G p Hp). destruct (m_opt m); [|injection Hx as <- <-; auto].
      destruct (m_def m) as [d|] eqn:Hm; [|injection Hx as <- <-; auto].
      destruct (e_store E d) eqn:Hst; injection Hx as <- <-; auto. split; [auto|]. split; auto.
      intros v' [<-|Hin]; auto. split; [auto|]. eapply Hd; simpl; eauto.
Qed.

Lemma set_mem_sane n q ms : sane q -> (forall m p, In (m, p) ms -> sane p) -> forall m p, In (m, p) (set_mem n q ms) -> sane p.
Proof.
  intros Hq H m p Hin. apply In_nth_error in Hin. destruct Hin as [i Hi].
  destruct (set_mem_nth _ _ _ _ Hi) as [(mp & _ & _ & He)|Hn]; [injection He as -> ->; auto|].
  eapply H. eapply nth_error_In; eauto.
Qed.

Lemma uni_set_sane cur ms : defaults_kept ms -> (forall m p, In (m, p) ms -> sane p) ->
  forall ms' x, uni_set_value E cur ms = (ms', x) ->
  defaults_kept ms' /\ (forall m p, In (m, p) ms' -> sane p) /\
  (cur < List.length ms -> match x with inr (Some v) => all_kept v | inr None => False | inl _ => True end) /\
  List.length ms' = List.length ms.
Proof.
  intros Hd Hs ms' x. unfold uni_set_value. destruct (nth_error ms cur) as [[m p]|] eqn:Hn.
  2:{ intros He; injection He as <- <-. apply nth_error_None in Hn. split; [auto|split; [auto|split; [lia|auto]]]. }
  pose proof (nth_error_In _ _ Hn) as Hin. pose proof (Hs _ _ Hin) as Hp.
  destruct (is_set p).
  - destruct (pop_value p) as [[v p']|] eqn:Hv; intros He; injection He as <- <-; auto.
    destruct (sane_pop Hp Hv) as [P1 P2]. split; [apply set_mem_defaults; auto|]. split; [apply set_mem_sane; auto|].
    split; [|apply set_mem_length]. destruct (e_store E v) eqn:Hst; auto. intros _. constructor; auto.
  - destruct (m_opt m); [|intros He; injection He as <- <-; auto].
    destruct (m_def m) as [d|] eqn:Hm; intros He; injection He as <- <-; auto.
    split; [auto|]. split; auto. split; auto. destruct (e_store E d) eqn:Hst; auto. intros _. constructor; auto. eapply Hd; eauto.
Qed.

Lemma sane_mems p ms : sane p -> match p with PObj _ _ _ ms' _ _ _ | PUni _ _ _ _ _ _ ms' _ _ => ms = ms' | _ => False end ->
  forall m q, In (m, q) ms -> sane q.
Proof.
  intros H Hp m q Hin. apply In_nth_error in Hin. destruct Hin as [i Hi].
  destruct p; try contradiction; subst; apply (@sane_child _ (Mem i) _ H); simpl; rewrite Hi; reflexivity.
Qed.

Lemma sane_obj b k v ms ig ign cb :
  own_kept (PObj b k v ms ig ign cb) -> (forall m q, In (m, q) ms -> sane q) -> sane (PObj b k v ms ig ign cb).
Proof.
  intros Ho Hm. constructor; auto. intros [] c; simpl; try discriminate; intros Hc; [|injection Hc as <-; apply sane_ign].
  destruct (nth_error ms n) as [[m q]|] eqn:Hn; [|discriminate]. injection Hc as <-. eapply Hm, nth_error_In; eauto.
Qed.
Lemma sane_uni b st v t tm cur ms ig cb :
  own_kept (PUni b st v t tm cur ms ig cb) -> (forall m q, In (m, q) ms -> sane q) -> sane (PUni b st v t tm cur ms ig cb).
Proof.
  intros Ho Hm. constructor; auto. intros [] c; simpl; try discriminate; intros Hc; [|injection Hc as <-; apply sane_ign].
  destruct (nth_error ms n) as [[m q]|] eqn:Hn; [|discriminate]. injection Hc as <-. eapply Hm, nth_error_In; eauto.
Qed.

Lemma same_kind_base p b : same_kind p (with_base p b).
Proof. destruct p; simpl; auto. Qed.
Lemma upd_twice m pi p q q' : get pi (m_root m) = Some p -> same_kind p q -> same_kind p q' ->
  upd (upd m pi q') pi q = upd m pi q.
Proof. intros H K1 K2. unfold upd. simpl. erewrite put_put; eauto. Qed.

Lemma oks_finish m pi p : snd_ m -> get pi (m_root m) = Some p ->
  oks (Model.finish E pi (upd m pi (set_set true p))).
Proof.
  intros H Hg. unfold Model.finish. apply oks_at. intros p' Hp'.
  assert (Hp : p' = set_set true p).
  { simpl in Hp'. erewrite get_put_same in Hp'; eauto; [congruence|apply same_kind_base]. }
  subst p'. clear Hp'.
  pose proof (sane_get _ (proj1 H) Hg) as Hs. pose proof (sane_own Hs) as Ho.
  assert (Hfree : sane (set_set true p) -> snd_ (upd m pi (set_set true p))).
  { intros Hf. eapply snd_upd; eauto. }
  assert (Hup : forall q, same_kind p q -> sane q -> snd_ (upd (upd m pi (set_set true p)) pi q)).
  { intros q K1 K2. erewrite upd_twice; eauto using same_kind_base. eapply snd_upd; eauto. }
  assert (Hpops : forall M o m', snd_ m' -> m_root m' = m_root M -> snd_ (pops_eff pi o m')).
  { intros; apply snd_pops; auto. }
  assert (Hno : forall M (o : cbout) m', snd_ m' -> m_root m' = m_root M -> snd_ (no_eff o m')) by auto.
  destruct p as [b t v cb|b sd st vals e cb|b st key vals e ecb cb|b k v ms ig ign cb|b st v t tm cur ms ig cb|i];
    try destruct b as [bd bs be];
    cbn [set_set with_base base_of b_set b_empty b_disp] in *.
  - assert (K : sane (PVal (mkB bd true be) t v cb)) by (eapply sane_same; [exact Hs|exact Ho|intros []; reflexivity]).
    apply oks_run_cb; [apply Hfree; exact K| |apply Hno]. intros i. simpl in *. destruct Ho as [x ->]. constructor.
  - assert (K : sane (PArr (mkB bd true be) sd st vals e cb)) by (eapply sane_same; [exact Hs|exact Ho|intros []; reflexivity]).
    destruct st; (apply oks_run_cb; [apply Hfree; exact K| |first [apply Hno|apply Hpops]]); intros i; simpl in *; auto.
    constructor; auto.
  - assert (K : sane (PMap (mkB bd true be) st key vals e ecb cb)) by (eapply sane_same; [exact Hs|exact Ho|intros []; reflexivity]).
    apply oks_run_cb; [apply Hfree; exact K|intros i; simpl; auto|apply Hpops].
  - pose proof (sane_unset Hs) as Hun. pose proof (@sane_mems _ ms Hs eq_refl) as Hm. destruct be.
    { apply Hup; [simpl; auto|exact Hun]. }
    destruct k.
    + assert (K : sane (PObj (mkB bd true false) OPlain v ms ig ign cb)) by (eapply sane_same; [exact Hs|exact Ho|intros []; reflexivity]).
      destruct (check_members E ms); [apply Hup; [simpl; auto|exact Hun]|].
      apply oks_run_cb; [apply Hfree; exact K|intros i; simpl; auto|apply Hpops].
    + destruct Ho as [_ Hd]. destruct (set_values E ms) as [ms' [e|vs]] eqn:Hx;
        destruct (set_values_sane Hd Hm Hx) as (K1 & K2 & K3).
      * apply Hup; [simpl; auto|]. apply sane_obj; auto. simpl. split; auto; discriminate.
      * assert (K : all_kept (VTup vs)) by (constructor; auto).
        apply oks_run_cb; [|intros i; exact K|apply Hno].
        apply Hup; [simpl; auto|]. apply sane_obj; auto. simpl. split; auto.
    + assert (K : sane (PObj (mkB bd true false) OCustom v ms ig ign cb)) by (eapply sane_same; [exact Hs|exact Ho|intros []; reflexivity]).
      destruct (check_members E ms); [apply Hup; [simpl; auto|exact Hun]|].
      apply oks_run_cb; [apply Hfree; exact K|intros i; simpl; auto|].
      intros o m' K1 K2. apply snd_cust; auto. rewrite K2. simpl. erewrite get_put_same; eauto. simpl; auto.
  - pose proof (sane_unset Hs) as Hun. pose proof (@sane_mems _ ms Hs eq_refl) as Hm. destruct be.
    { apply Hup; [simpl; auto|exact Hun]. }
    destruct st.
    + destruct Ho as [Ho1 Hd]. destruct (uni_set_value E cur ms) as [ms' [e|o]] eqn:Hx;
        destruct (uni_set_sane _ Hd Hm Hx) as (K1 & K2 & K3 & K4).
      * apply Hup; [simpl; auto|]. apply sane_uni; auto. simpl. rewrite K4. split; auto. intros _; split; [apply Ho1; auto|discriminate].
      * specialize (K3 (proj1 (Ho1 eq_refl))). destruct o as [w|].
        -- apply oks_run_cb; [|intros i; exact K3|apply Hno].
           apply Hup; [simpl; auto|]. apply sane_uni; auto. simpl. rewrite K4. split; auto. intros _; split; auto. apply Ho1; auto.
        -- contradiction.
    + assert (K : sane (PUni (mkB bd true false) false v t tm cur ms ig cb)).
      { eapply sane_same; [exact Hs| |intros []; reflexivity]. destruct Ho. split; auto. discriminate. }
      destruct (uni_check cur ms); [apply Hup; [simpl; auto|exact Hun]|].
      apply oks_run_cb; [apply Hfree; exact K|intros i; simpl; auto|apply Hpops].
  - apply Hfree, sane_ign.
Qed.

Section Step.
Variable rec : call -> mstate -> res.
Hypothesis IH : forall c m, snd_ m -> oks (rec c m).

Lemma oks_pop_if d m : snd_ m -> oks (pop_if_disp g rec d m).
Proof. intros H. unfold pop_if_disp. destruct d; auto. apply oks_deref. apply IH; auto. Qed.

Lemma oks_null m pi p : snd_ m -> get pi (m_root m) = Some p -> oks (on_null g rec pi p m).
Proof. intros H Hg. apply oks_pop_if. eapply snd_upd; eauto. apply sane_reset. eapply sane_get; eauto. apply H. Qed.

Lemma oks_member A pi p (ms : list (mspec * A)) ign nm m : snd_ m -> get pi (m_root m) = Some p ->
  oks (on_member E g pi p ms ign nm m).
Proof.
  intros H Hg. unfold on_member.
  assert (K : snd_ (upd m pi (set_not_empty p))).
  { eapply snd_upd; eauto. apply sane_not_empty. eapply sane_get; eauto. apply H. }
  destruct (lookup nm ms); [apply oks_deref; auto|]. destruct ign; [apply oks_deref; auto|auto].
Qed.

Lemma snd_stack m st : snd_ m -> snd_ (set_stack m st).
Proof. auto. Qed.

Lemma oks_body c m : snd_ m -> oks (call_body E g rec c m).
Proof.
  intros H. destruct c as [|t|pi t|pi|pi]; simpl.
  - unfold body_pop. destruct (m_stack m) as [|q [|q' r]]; auto; simpl; auto.
  - unfold body_disp. destruct (m_stack m); simpl; auto.
  - unfold body_on. apply oks_at. intros p Hg.
    pose proof (sane_get _ (proj1 H) Hg) as Hs. pose proof (sane_own Hs) as Ho.
    assert (Hup : forall q, sane q -> snd_ (upd m pi q)) by (intros; eapply snd_upd; eauto).
    assert (Hsame : forall q, own_kept q -> (forall sp, child q sp = child p sp) -> snd_ (upd m pi q)).
    { intros q K1 K2. apply Hup. eapply sane_same; eauto. }
    pose proof (oks_null _ H Hg) as Hnull. pose proof (sane_reset Hs) as Hrs.
    destruct p.
    + unfold on_val. destruct t; try exact H; auto.
      destruct (takes_scalar t0 x) eqn:Hx; [|exact H]. apply IH, Hsame; [simpl; eauto|intros []; reflexivity].
    + assert (Henter : oks (arr_enter g rec pi (PArr b started store vals p cb) t m)).
      { unfold arr_enter. apply oks_deref. apply IH. apply snd_stack. apply Hup.
        apply sane_not_empty. constructor; [exact Ho|]. intros [] c; simpl; try discriminate. intros Hc. injection Hc as <-.
        apply sane_set_disp. apply (@sane_child _ Elem _ Hs). reflexivity. }
      unfold on_arr. destruct t; try exact H.
      * destruct started; [apply IH; auto|auto].
      * destruct started; [|exact H]. apply oks_bind; [apply IH; auto|]. intros m1 K1.
        apply oks_at. intros p1 Hp1. apply IH. eapply snd_upd; eauto. apply sane_not_empty. exact (sane_get _ (proj1 K1) Hp1).
      * destruct started; [|exact H]. auto.
      * destruct started; [auto|]. apply Hup. cbn [reset] in Hrs |- *.
        eapply sane_same; [exact Hrs|apply (sane_own Hrs)|intros []; reflexivity].
      * apply IH, Hsame; [exact Ho|intros []; reflexivity].
    + unfold on_map. destruct t; try exact H; auto.
      * apply Hup. exact Hrs.
      * apply oks_deref. apply snd_stack. apply Hup. apply sane_not_empty.
        eapply sane_same; [exact Hs|exact Ho|intros []; reflexivity].
    + unfold on_obj. destruct t; try exact H; auto.
      * apply Hup. exact Hrs.
      * apply oks_member; auto.
    + unfold on_uni. destruct t; try exact H; auto.
      * destruct (takes_scalar t0 x); [|exact H].
        set (p1 := reset (PUni b store v t0 tm cur ms ig cb)).
        assert (K1 : snd_ (upd m pi p1)) by (apply Hup; exact Hrs).
        assert (K2 : get pi (m_root (upd m pi p1)) = Some p1).
        { simpl. eapply get_put_same; eauto. simpl; auto. }
        pose proof (@oks_member _ pi p1 ms false x _ K1 K2) as K3. unfold on_member in *.
        destruct (lookup x ms) as [i|] eqn:Hl; [|exact K3].
        unfold deref in *. destruct (disp_of p1) as [d|]; [|exact I]. destruct (Nat.eqb d g); [|exact I].
        cbn [bind]. apply oks_at. intros p2 Hp2. cbn [oks] in K3.
        assert (K4 : p2 = set_not_empty p1).
        { unfold push, set_stack, upd in Hp2. cbn [m_root] in Hp2. cbn [upd m_root] in K2. rewrite (@get_put_same pi _ p1 (set_not_empty p1) K2) in Hp2 by (simpl; auto). congruence. }
        subst p2. simpl. eapply snd_upd; [exact K3|exact Hp2|].
        eapply sane_same; [exact Hrs| |intros []; reflexivity].
        pose proof (sane_own Hrs) as [_ Hd]. simpl. split; [|exact Hd]. intros Hst. split; [|discriminate].
        rewrite map_length. eapply lookup_lt; eauto.
      * destruct (String.eqb tm ""); [exact H|]. apply Hup. exact Hrs.
      * destruct (String.eqb tm ""); [exact H|]. destruct (String.eqb k tm); exact H.
    + unfold on_ign.
      assert (Hig : forall st, snd_ (upd m pi (PIgn (mkI (ig_b i) st)))).
      { intros st. apply Hup. apply sane_ign. }
      destruct t; auto; try apply Hig.
      * destruct (ig_st i); [apply IH; auto|exact H].
      * destruct (ig_st i) as [|[] r]; exact H.
      * destruct (ig_st i) as [|[] [|]]; try exact H; [apply IH, Hig|apply Hig].
      * destruct (ig_st i) as [|[] [|]]; try exact H; [apply IH, Hig|apply Hig].
  - unfold body_end. apply oks_at. intros p Hg. apply oks_bind; [apply oks_finish; auto|].
    intros m2 K2. apply oks_at. intros p2 _. apply oks_pop_if; auto.
  - unfold body_child. apply oks_at. intros p Hg. destruct p; auto.
    + pose proof (sane_get _ (proj1 H) Hg) as Hs. pose proof (sane_own Hs) as Ho.
      destruct store; [|exact H]. destruct (pop_value p) as [[v e']|] eqn:Hp; [|exact H].
      destruct (@sane_pop p v e') as [P1 P2]; auto. { apply (@sane_child _ Elem _ Hs). reflexivity. }
      assert (Hc : forall vals', own_kept (PArr b started true vals' e' cb) -> sane (PArr b started true vals' e' cb)).
      { intros vals' K. constructor; auto. intros [] c; simpl; try discriminate. intros Hc. injection Hc as <-. auto. }
      destruct (e_store E v) eqn:Hst; (eapply snd_upd; eauto; apply Hc; simpl in *; auto).
      intros v' Hin. apply in_app_iff in Hin. destruct Hin as [Hin|[<-|[]]]; auto.
    + apply oks_bind.
      * apply oks_run_cb; auto; [intros i; simpl; auto|]. intros. apply snd_pops; auto.
      * intros m1 K1. destruct store; [|exact K1]. apply oks_at. intros p1 Hp1. destruct p1; try exact K1.
        destruct (pop_value p1) as [[v e']|] eqn:Hp; [|exact K1].
        pose proof (sane_get _ (proj1 K1) Hp1) as Hs. pose proof (sane_own Hs) as Ho.
        destruct (@sane_pop p1 v e') as [P1 P2]; auto. { apply (@sane_child _ Elem _ Hs). reflexivity. }
        match goal with |- context[PMap ?b0 ?st0 ?key0 _ e' ?ecb0 ?cb0] =>
          assert (Hc : forall vals', own_kept (PMap b0 st0 key0 vals' e' ecb0 cb0) -> sane (PMap b0 st0 key0 vals' e' ecb0 cb0))
        end.
        { intros vals' K. constructor; auto. intros [] c; simpl; try discriminate. intros Hc. injection Hc as <-. auto. }
        destruct (e_store E v) eqn:Hst; (eapply snd_upd; eauto; apply Hc; simpl in *; auto).
        intros k' v' Hin. eapply insert_kept; [| | |exact Hin]; auto.
    + apply oks_bind; [apply IH; auto|]. intros m1 K1. destruct (String.eqb tm ""); [|exact K1].
      apply oks_at. intros p1 _. apply oks_deref. apply IH; auto.
Qed.
End Step.

Lemma oks_fault c m x m' : snd_ m -> In m' (faults g c m) -> oks (RThrow x m').
Proof.
  intros H Hin. apply (@faults_cases g (fun m' => oks (RThrow x m')) c m m' Hin); auto; cbn [oks]; intros; try (unfold push; apply snd_stack);
    (eapply snd_upd; [auto|eassumption|]); apply sane_not_empty;
    match goal with Hg : get _ _ = Some _ |- _ => pose proof (sane_get _ (proj1 H) Hg) as Hs end; auto using sane_reset.
  constructor; [exact (sane_own Hs)|]. intros [] d; simpl; try discriminate. intros Hc. injection Hc as <-.
  apply sane_set_disp. apply (@sane_child _ Elem _ Hs). reflexivity.
Qed.
End Run.

Lemma oks_exec E g l0 f : (forall v, e_store E v = None -> ok v) -> forall c m, snd_ l0 m -> oks l0 (exec E g f c m).
Proof.
  intros Hok. induction f as [|f IH]; intros c m H; [exact I|]. cbn [exec]. apply body_cases.
  - intros E' _ _ Hst. apply oks_body; auto.
  - intros x m' Hin. eapply oks_fault; eauto.
Qed.

Section Runs.
Variable E : env.
Variable g : nat.
Hypothesis Hok : forall v, e_store E v = None -> ok v.
Variable l0 : list event.
Notation snd_ := (snd_ l0).
Notation oks := (oks l0).

Lemma oks_run ts : forall m, snd_ m -> oks (run E g ts m).
Proof.
  induction ts as [|t ts IH]; simpl; intros m H; auto. apply oks_bind; auto. apply oks_exec; auto.
Qed.
End Runs.
End Kept.
