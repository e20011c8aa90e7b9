(** What is stored always has the shape of its declaration: for every declaration, in
    every state any calls can lead to, with any texts and callbacks. *)

From Verif Require Import Spec Model Infra Total Safe Refine Main Closed Accept Access.
From Coq Require Import Sorting.Sorted.
Local Open Scope string_scope.
Set Implicit Arguments.

(** ** Specification *)

(** The values of a storing declaration: its C++ ValueType (value.h:41, s_array.h:45,
    s_map.h:48, s_auto_object.h:60, s_custom_object.h:72, s_union.h:74); keys of a
    std::map are in strictly increasing order.  Declarations that do not store have no
    values. *)
Inductive typed : schema -> value -> Prop :=
| ty_val t cb x : ty_of x = t -> typed (SVal t cb) (VSc x)
| ty_arr e cb vs : Forall (typed e) vs -> typed (SArr true e cb) (VVec vs)
| ty_map e ecb cb kvs : StronglySorted str_lt (map fst kvs) ->
    Forall (fun kv => typed e (snd kv)) kvs -> typed (SMp true e ecb cb) (VMap kvs)
| ty_auto ms ign cb vs : Forall2 (fun mp v => typed (snd mp) v) ms vs ->
    typed (SObj OAuto ms ign cb) (VTup vs)
| ty_cust ms ign cb o : typed (SObj OCustom ms ign cb) (VCust o)
| ty_uni t tm ms cb i m c v : nth_error ms i = Some (m, c) -> typed c v ->
    typed (SUni true t tm ms cb) (VVar i v).

(** What the compiler checks about a declaration: the default value of a member has the
    ValueType of the member's parser (member.h:57) and an SUnion has a member
    ([std::variant<>] is ill-formed). *)
Inductive compiles : schema -> Prop :=
| co_val t cb : compiles (SVal t cb)
| co_arr st e cb : compiles e -> compiles (SArr st e cb)
| co_map st e ecb cb : compiles e -> compiles (SMp st e ecb cb)
| co_obj k ms ign cb : Forall (fun mp => compiles (snd mp)) ms ->
    Forall (fun mp => forall d, m_def (fst mp) = Some d -> typed (snd mp) d) ms ->
    compiles (SObj k ms ign cb)
| co_uni st t tm ms cb : Forall (fun mp => compiles (snd mp)) ms ->
    Forall (fun mp => forall d, m_def (fst mp) = Some d -> typed (snd mp) d) ms ->
    (st = true -> ms <> []) -> compiles (SUni st t tm ms cb)
| co_ign : compiles SIgn.

(** The declarations of the parsers parser<0>(), parser<1>(), ... *)
Definition member_decls (s : schema) : list schema :=
  match s with SObj _ ms _ _ | SUni _ _ _ ms _ => map snd ms | _ => [] end.
Definition is_uni (s : schema) : bool := match s with SUni _ _ _ _ _ => true | _ => false end.

(** [shape s w]: what the API shows of a parser declared as [s], at any moment:
    get() works exactly if the parser is set (and its class stores), and returns a value
    of the declaration; in a set SUnion, currentMemberId() is the alternative that the
    std::variant holds, and below the number of member_decls; and so on for parser<n>(). *)
Inductive shape : schema -> view -> Prop :=
  shape_intro s w :
    (v_set w = true -> stores s = true -> exists v, v_val w = Some v /\ typed s v) ->
    (v_set w = false \/ stores s = false -> v_val w = None) ->
    (v_set w = true -> stores s = true -> is_uni s = true ->
     v_cur w < List.length (member_decls s) /\ exists v, v_val w = Some (VVar (v_cur w) v)) ->
    Forall2 shape (member_decls s) (v_kids w) ->
    shape s w.

(** A callback invocation that a C++ program declaring [s] can receive: some part of the
    declaration has this callback, and the arguments have that part's types. *)
Inductive told (s : schema) : event -> Prop :=
| to_fin c q o : part q s ->
    match q with
    | SVal _ cb => cb = Some c /\ exists v, o = OVal v /\ typed q v
    | SArr true _ cb => cb = Some c /\ exists v, o = OVal v /\ typed q v
    | SObj OAuto _ _ cb => cb = Some c /\ exists v, o = OVal v /\ typed q v
    | SUni true _ _ _ cb => cb = Some c /\ exists v, o = OVal v /\ typed q v
    | SArr false _ cb | SMp _ _ _ cb | SObj OPlain _ _ cb | SUni false _ _ _ cb =>
        cb = Some c /\ exists w, o = OSelf w /\ v_set w = true /\ shape q w
    | SObj OCustom _ _ cb =>
        cb = Some c /\ exists w v, o = OCust w v /\ v_set w = true /\ shape q w /\ v_val w = Some v
    | SIgn => False
    end -> told s (Ev c o)
| to_elem c st e cb k w : part (SMp st e (Some c) cb) s -> shape e w ->
    told s (Ev c (OElem k w)).

(** ** The invariant *)
Inductive fit : schema -> parser -> Prop :=
| fi_val b t v cb x : v = VSc x -> ty_of x = t -> fit (SVal t cb) (PVal b t v cb)
| fi_arr b sd st vals s e cb : Forall (typed s) vals \/ st = false -> fit s e ->
    fit (SArr st s cb) (PArr b sd st vals e cb)
| fi_map b st key vals s e ecb cb :
    (StronglySorted str_lt (map fst vals) /\ Forall (fun kv => typed s (snd kv)) vals) \/ st = false ->
    fit s e -> fit (SMp st s ecb cb) (PMap b st key vals e ecb cb)
| fi_obj b k v ss ms ig ign cb :
    match k with
    | OPlain => True
    | OAuto => b_set b = true -> typed (SObj k ss ign cb) v
    | OCustom => typed (SObj k ss ign cb) v
    end ->
    Forall (fun mp => forall d, m_def (fst mp) = Some d -> typed (snd mp) d) ss ->
    Forall2 (fun sp mp => fst sp = fst mp /\ fit (snd sp) (snd mp)) ss ms ->
    fit (SObj k ss ign cb) (PObj b k v ms ig ign cb)
| fi_uni b st v t tm cur ss ms ig cb :
    (st = true -> cur < List.length ms /\
       (b_set b = true -> exists x, v = VVar cur x /\ typed (SUni st t tm ss cb) v)) ->
    Forall (fun mp => forall d, m_def (fst mp) = Some d -> typed (snd mp) d) ss ->
    Forall2 (fun sp mp => fst sp = fst mp /\ fit (snd sp) (snd mp)) ss ms ->
    fit (SUni st t tm ss cb) (PUni b st v t tm cur ms ig cb)
| fi_ign i : fit SIgn (PIgn i).

Section FitInd.
  Variable P : schema -> parser -> Prop.
  Hypothesis HV : forall b t v cb x, v = VSc x -> ty_of x = t -> P (SVal t cb) (PVal b t v cb).
  Hypothesis HA : forall b sd st vals s e cb, Forall (typed s) vals \/ st = false -> fit s e -> P s e ->
    P (SArr st s cb) (PArr b sd st vals e cb).
  Hypothesis HM : forall b st key vals s e ecb cb,
    (StronglySorted str_lt (map fst vals) /\ Forall (fun kv => typed s (snd kv)) vals) \/ st = false ->
    fit s e -> P s e -> P (SMp st s ecb cb) (PMap b st key vals e ecb cb).
  Hypothesis HO : forall b k v ss ms ig ign cb,
    match k with
    | OPlain => True
    | OAuto => b_set b = true -> typed (SObj k ss ign cb) v
    | OCustom => typed (SObj k ss ign cb) v
    end ->
    Forall (fun mp => forall d, m_def (fst mp) = Some d -> typed (snd mp) d) ss ->
    Forall2 (fun sp mp => fst sp = fst mp /\ fit (snd sp) (snd mp)) ss ms ->
    Forall2 (fun sp mp => fst sp = fst mp /\ P (snd sp) (snd mp)) ss ms ->
    P (SObj k ss ign cb) (PObj b k v ms ig ign cb).
  Hypothesis HU : forall b st v t tm cur ss ms ig cb,
    (st = true -> cur < List.length ms /\
       (b_set b = true -> exists x, v = VVar cur x /\ typed (SUni st t tm ss cb) v)) ->
    Forall (fun mp => forall d, m_def (fst mp) = Some d -> typed (snd mp) d) ss ->
    Forall2 (fun sp mp => fst sp = fst mp /\ fit (snd sp) (snd mp)) ss ms ->
    Forall2 (fun sp mp => fst sp = fst mp /\ P (snd sp) (snd mp)) ss ms ->
    P (SUni st t tm ss cb) (PUni b st v t tm cur ms ig cb).
  Hypothesis HI : forall i, P SIgn (PIgn i).

  Fixpoint fit_ind' s p (H : fit s p) : P s p :=
    let fix go ss ms (H : Forall2 (fun sp mp => fst sp = fst mp /\ fit (snd sp) (snd mp)) ss ms)
      : Forall2 (fun sp mp => fst sp = fst mp /\ P (snd sp) (snd mp)) ss ms :=
      match H with
      | Forall2_nil _ => Forall2_nil _
      | @Forall2_cons _ _ _ x y r r' Hx Hr =>
          @Forall2_cons _ _ (fun sp mp => fst sp = fst mp /\ P (snd sp) (snd mp)) x y r r'
            (match Hx with conj A B => conj A (fit_ind' B) end) (go r r' Hr)
      end in
    match H with
    | @fi_val b t v cb x H1 H2 => @HV b t v cb x H1 H2
    | @fi_arr b sd st vals s e cb H1 H2 => @HA b sd st vals s e cb H1 H2 (fit_ind' H2)
    | @fi_map b st key vals s e ecb cb H1 H2 => @HM b st key vals s e ecb cb H1 H2 (fit_ind' H2)
    | @fi_obj b k v ss ms ig ign cb H1 H2 H3 => @HO b k v ss ms ig ign cb H1 H2 H3 (go _ _ H3)
    | @fi_uni b st v t tm cur ss ms ig cb H1 H2 H3 => @HU b st v t tm cur ss ms ig cb H1 H2 H3 (go _ _ H3)
    | fi_ign i => HI i
    end.
End FitInd.

(** ** Preservation *)

(** [q'] may replace [q] wherever [q] fits. *)
Definition refit (q q' : parser) : Prop := forall s, fit s q -> fit s q'.

Lemma refit_refl q : refit q q.
Proof. intros s H; auto. Qed.
Lemma refit_trans a b c : refit a b -> refit b c -> refit a c.
Proof. unfold refit; auto. Qed.

Lemma fit2_nth ss ms n mp :
  Forall2 (fun sp mp : mspec * _ => fst sp = fst mp /\ fit (snd sp) (snd mp)) ss ms ->
  nth_error ms n = Some mp -> exists sp, nth_error ss n = Some sp /\ fst sp = fst mp /\ fit (snd sp) (snd mp).
Proof.
  intros H; revert n; induction H as [|x y r r' [H1 H2] Hr IH]; intros [|n] Hn; simpl in *; try discriminate; eauto.
  injection Hn as <-; eauto.
Qed.

Lemma fit2_set ss ms n q mp :
  Forall2 (fun sp mp : mspec * _ => fst sp = fst mp /\ fit (snd sp) (snd mp)) ss ms ->
  nth_error ms n = Some mp -> refit (snd mp) q ->
  Forall2 (fun sp mp : mspec * _ => fst sp = fst mp /\ fit (snd sp) (snd mp)) ss (set_nth n (fst mp, q) ms).
Proof.
  intros H; revert n; induction H as [|x y r r' [H1 H2] Hr IH]; intros [|n] Hn Hq; simpl in *; try discriminate.
  - injection Hn as <-. constructor; auto.
  - constructor; auto.
Qed.

Lemma fit2_len A B (R : A -> B -> Prop) l l' : Forall2 R l l' -> List.length l = List.length l'.
Proof. induction 1; simpl; auto. Qed.

Lemma set_mem_length n q ms : List.length (set_mem n q ms) = List.length ms.
Proof. unfold set_mem. destruct (nth_error ms n); auto. apply set_nth_length. Qed.

Lemma refit_set_child p sp c q : child p sp = Some c -> refit c q -> refit p (set_child p sp q).
Proof.
  intros Hc Hq s H. destruct H; destruct sp; simpl in *; try discriminate; try (injection Hc as <-).
  - constructor; auto.
  - constructor; auto.
  - destruct (nth_error ms n) as [mp|] eqn:Hn; try discriminate. injection Hc as <-.
    unfold set_mem. rewrite Hn. constructor; auto. eapply fit2_set; eauto.
  - constructor; auto.
  - destruct (nth_error ms n) as [mp|] eqn:Hn; try discriminate. injection Hc as <-.
    constructor; auto.
    + rewrite set_mem_length. auto.
    + unfold set_mem. rewrite Hn. eapply fit2_set; eauto.
  - constructor; auto.
Qed.

Lemma refit_put pi : forall p c q, get pi p = Some c -> refit c q -> refit p (put pi q p).
Proof.
  induction pi as [|sp pi IH]; simpl; intros p c q H Hq; [injection H as <-; auto|].
  destruct (child p sp) as [x|] eqn:Hx; try discriminate.
  eapply refit_set_child; eauto.
Qed.

Lemma fit_child s p sp c : fit s p -> child p sp = Some c -> exists s', fit s' c /\ (s' = SIgn \/ part s' s).
Proof.
  intros H Hc. destruct H; destruct sp; simpl in *; try discriminate; try (injection Hc as <-).
  - exists s. split; auto. right. constructor. constructor.
  - exists s. split; auto. right. constructor. constructor.
  - destruct (nth_error ms n) as [mp|] eqn:Hn; try discriminate. injection Hc as <-.
    destruct (fit2_nth _ H1 Hn) as (sp & K1 & K2 & K3). exists (snd sp). split; auto. right.
    eapply part_mem; [reflexivity|eapply nth_error_In; eauto|constructor].
  - exists SIgn. split; auto. constructor.
  - destruct (nth_error ms n) as [mp|] eqn:Hn; try discriminate. injection Hc as <-.
    destruct (fit2_nth _ H1 Hn) as (sp & K1 & K2 & K3). exists (snd sp). split; auto. right.
    eapply part_mem; [reflexivity|eapply nth_error_In; eauto|constructor].
  - exists SIgn. split; auto. constructor.
Qed.

Lemma part_trans a b c : part a b -> part b c -> part a c.
Proof. intros H. induction 1; auto; econstructor; eauto. Qed.

Lemma part_ign q : part q SIgn -> q = SIgn.
Proof. intros H; inversion H; subst; auto. discriminate. Qed.

Lemma fit_get pi : forall s p q, fit s p -> get pi p = Some q ->
  exists s', fit s' q /\ (s' = SIgn \/ part s' s).
Proof.
  induction pi as [|sp pi IH]; simpl; intros s p q H Hg.
  - injection Hg as <-. exists s. split; auto. right. constructor.
  - destruct (child p sp) as [c|] eqn:Hc; try discriminate.
    destruct (fit_child _ H Hc) as (s1 & H1 & H2). destruct (IH _ _ _ H1 Hg) as (s2 & H3 & H4).
    exists s2. split; auto. destruct H4 as [->|H4]; auto. destruct H2 as [->|H2].
    + apply part_ign in H4. auto.
    + right. eapply part_trans; eauto.
Qed.

Definition lowers (b b' : base) : Prop := b_set b' = true -> b_set b = true.

Lemma refit_with_base p b : lowers (base_of p) b -> refit p (with_base p b).
Proof.
  intros Hb s H. destruct H; simpl in *; try (econstructor; eauto; fail).
  - constructor; auto. destruct k; auto.
  - constructor; auto. intros Hs. destruct (H Hs). split; auto.
Qed.

Lemma refit_unset p : refit p (set_set false p).
Proof. apply refit_with_base. unfold lowers; simpl. discriminate. Qed.

Lemma refit_not_empty p : refit p (set_not_empty p).
Proof. apply refit_with_base. unfold lowers; simpl. auto. Qed.

Lemma fit2_map (f : parser -> parser) ss ms :
  Forall2 (fun sp mp : mspec * _ => fst sp = fst mp /\ fit (snd sp) (f (snd mp))) ss ms ->
  Forall2 (fun sp mp : mspec * _ => fst sp = fst mp /\ fit (snd sp) (snd mp)) ss
          (map (fun mp => (fst mp, f (snd mp))) ms).
Proof. induction 1 as [|x y r r' [H1 H2] _ IH]; simpl; constructor; auto. Qed.

Lemma refit_set_disp d p : refit p (set_disp d p).
Proof.
  intros s H. induction H using fit_ind'; simpl; try (econstructor; eauto; fail).
  - constructor; auto. apply fit2_map with (f := set_disp d); auto.
  - constructor; auto; [rewrite map_length; auto|]. apply fit2_map with (f := set_disp d); auto.
Qed.

Lemma refit_reset p : refit p (reset p).
Proof.
  intros s H. induction H using fit_ind'; cbn [reset].
  - econstructor; eauto.
  - constructor; auto. destruct st; auto.
  - constructor; auto. destruct st; auto. left. split; constructor.
  - constructor; auto; [|apply fit2_map with (f := reset); auto].
    destruct k; auto; [discriminate|constructor].
  - constructor; auto; [|apply fit2_map with (f := reset); auto].
    intros Hs. destruct (H Hs) as [K1 K2]. rewrite map_length. split; [lia|discriminate].
  - constructor.
Qed.

Lemma refit_unset_at p rel : refit p (unset_at p rel).
Proof.
  unfold unset_at. destruct (get rel p) as [q|] eqn:Hq; auto using refit_refl.
  destruct (stored q); auto using refit_refl. eapply refit_put; eauto using refit_unset.
Qed.

Lemma refit_pops rels : forall p, refit p (apply_pops rels p).
Proof.
  induction rels as [|r rels IH]; intros p; simpl; auto using refit_refl.
  eapply refit_trans; [apply refit_unset_at|apply IH].
Qed.

(** A set storing parser holds a value of its declaration. *)
Lemma fit_get_value s p v : fit s p -> get_value p = Some v -> typed s v /\ stores s = true.
Proof.
  intros H. unfold get_value, is_set. destruct H; simpl; try (destruct (b_set b) eqn:Hb; [|discriminate]); intros Hv.
  - injection Hv as <-. subst. split; auto. constructor; auto.
  - destruct st; [|discriminate]. injection Hv as <-. destruct H; [|discriminate]. split; auto. constructor; auto.
  - destruct st; [|discriminate]. injection Hv as <-. destruct H as [[? ?]|]; [|discriminate]. split; auto. constructor; auto.
  - destruct k; try discriminate; injection Hv as <-; auto.
  - destruct st; [|discriminate]. injection Hv as <-. destruct (H eq_refl) as [_ K]. destruct (K eq_refl) as (x & -> & K2). auto.
  - destruct (b_set (ig_b i)); discriminate.
Qed.

Lemma fit_set_value s p : fit s p -> is_set p = true -> stores s = true -> exists v, get_value p = Some v.
Proof.
  intros H. unfold get_value, is_set. destruct H; simpl; intros -> Hs; try discriminate; subst; simpl; eauto.
  destruct k; eauto. discriminate.
Qed.

Lemma fit_pop s p v q : fit s p -> pop_value p = Some (v, q) -> typed s v /\ fit s q.
Proof.
  unfold pop_value. intros H. destruct (get_value p) eqn:Hv; [|discriminate]. intros He. injection He as <- <-.
  split; [eapply fit_get_value; eauto|apply refit_unset; auto].
Qed.

Lemma fit_view s p : fit s p -> shape s (view_of p).
Proof.
  intros H. induction H using fit_ind'.
  all: match goal with |- shape ?s (view_of ?p) => assert (HF : fit s p) by (econstructor; eauto) end.
  all: constructor;
    [ intros K1 K2; destruct (fit_set_value HF K1 K2) as [w Hw]; exists w; split; [exact Hw|];
      exact (proj1 (fit_get_value HF Hw))
    | intros K; match goal with |- v_val (view_of ?p) = None => change (get_value p = None) end;
      destruct (get_value _) as [w|] eqn:Hw; auto;
      pose proof (proj2 (fit_get_value HF Hw)) as K3;
      destruct K as [K|K]; [unfold get_value, is_set in Hw; simpl in K, Hw; rewrite K in Hw; discriminate|congruence]
    | idtac | idtac ].
  all: try (intros _ _ K; discriminate).
  all: try (simpl; constructor; fail).
  - simpl. clear - H2. induction H2 as [|x y r r' [_ K] _ IH]; simpl; constructor; auto.
  - simpl. intros K1 K2 _. subst st. destruct (H eq_refl) as [K2 K3]. destruct (K3 K1) as (x & -> & _).
    rewrite K1. rewrite map_length. split; [|unfold get_value, is_set; simpl; rewrite K1; eauto].
    rewrite (fit2_len H1); auto.
  - simpl. clear - H2. induction H2 as [|x y r r' [_ K] _ IH]; simpl; constructor; auto.
Qed.

Lemma fit2_mk ms : Forall (fun mp : mspec * schema => compiles (snd mp) -> fit (snd mp) (mk (snd mp))) ms ->
  Forall (fun mp => compiles (snd mp)) ms ->
  Forall2 (fun sp mp : mspec * _ => fst sp = fst mp /\ fit (snd sp) (snd mp)) ms
          (map (fun mp => (fst mp, mk (snd mp))) ms).
Proof. induction 1; simpl; intros K; inversion K; subst; constructor; auto. Qed.

Lemma fit_mk s : compiles s -> fit s (mk s).
Proof.
  induction s as [| | | k ms ign cb IH | st t tm ms cb IH |] using schema_ind'; intros H; inversion H; subst; cbn [mk].
  - econstructor; [reflexivity|]. destruct t; reflexivity.
  - constructor; auto.
  - constructor; auto. left. split; constructor.
  - constructor; auto.
    + destruct k; auto; [discriminate|constructor].
    + apply fit2_mk; auto.
  - constructor; auto.
    + intros Hs. split; [|discriminate]. rewrite map_length. destruct ms; simpl; [|lia].
      match goal with H : st = true -> _ |- _ => exfalso; apply (H Hs eq_refl) end.
    + apply fit2_mk; auto.
  - constructor.
Qed.

Lemma insert_typed s k v (l : list (string * value)) : typed s v -> Forall (fun kv => typed s (snd kv)) l ->
  Forall (fun kv => typed s (snd kv)) (std_insert k v l).
Proof.
  intros Hv H. induction H as [|[k' v'] l H1 H2 IH]; simpl; auto.
  destruct (String.eqb k k'); auto. destruct (str_less k k'); auto.
Qed.

Lemma lookup_lt A nm (ms : list (mspec * A)) : forall i, lookup nm ms = Some i -> i < List.length ms.
Proof.
  induction ms as [|[m x] r IH]; simpl; intros i H; [discriminate|].
  destruct (name_eqb (m_name m) nm); [injection H as <-; lia|].
  destruct (lookup nm r); [|discriminate]. injection H as <-. specialize (IH _ eq_refl). lia.
Qed.

(** ** Runs *)
Section Run.
Variable E : env.
Variable g : nat.
Variable sc : schema.
Variable l0 : list event.

Definition sound (m : mstate) : Prop :=
  fit sc (m_root m) /\ exists l, m_log m = (l0 ++ l)%list /\ Forall (told sc) l.

Definition okt (r : res) : Prop :=
  match r with ROk m | RThrow _ m => sound m | _ => True end.

Lemma okt_bind r k : okt r -> (forall m, sound m -> okt (k m)) -> okt (bind r k).
Proof. destruct r; simpl; auto. Qed.

Lemma okt_at m pi k : (forall p, get pi (m_root m) = Some p -> okt (k p)) -> okt (at_node m pi k).
Proof. unfold at_node. destruct (get pi (m_root m)); simpl; auto. Qed.

Lemma okt_deref d r : okt r -> okt (deref g d r).
Proof. unfold deref. destruct d; simpl; auto. destruct (Nat.eqb n g); simpl; auto. Qed.

Lemma sound_upd m pi p q : sound m -> get pi (m_root m) = Some p -> refit p q -> sound (upd m pi q).
Proof. intros [H1 H2] Hg Hr. split; auto. simpl. eapply refit_put; eauto. Qed.

Lemma sound_stack m st : sound m -> sound (set_stack m st).
Proof. auto. Qed.

Lemma sound_log m e : sound m -> told sc e -> sound (add_log m e).
Proof.
  intros [H1 (l & H2 & H3)] He. split; auto. exists (l ++ [e])%list. simpl. rewrite H2, app_assoc.
  split; auto. apply Forall_app; auto.
Qed.

Lemma sound_away rels : forall m, sound m -> sound (away rels m).
Proof.
  unfold away. induction rels as [|rel rels IH]; intros m H; simpl; auto. apply IH.
  destruct H as [H1 H2]. split; auto. cbn [m_root].
  apply (@refit_unset_at (m_root m) rel); exact H1.
Qed.

Lemma okt_run_cb c a eff msg m :
  sound m -> (forall i, c = Some i -> told sc (Ev i (obs_of a))) ->
  (forall o m', sound m' -> m_root m' = m_root m -> sound (eff o m')) ->
  okt (run_cb E c a eff msg m).
Proof.
  intros H Hc He. unfold run_cb. destruct c as [c|]; [|auto].
  set (o := e_cb E c (m_log m) (m_root m) a).
  assert (K : sound (eff o (add_log m (Ev c (obs_of a))))).
  { apply He; auto. apply sound_log; auto. }
  assert (K' : sound (away (co_away o) (eff o (add_log m (Ev c (obs_of a)))))) by (apply sound_away; exact K).
  destruct (co_res o); auto.
Qed.

Lemma sound_pops pi o m : sound m -> sound (pops_eff pi o m).
Proof.
  intros H. unfold pops_eff. destruct (get pi (m_root m)) eqn:Hg; auto.
  eapply sound_upd; eauto using refit_pops.
Qed.

Lemma sound_cust pi o m : sound m ->
  match get pi (m_root m) with Some (PObj _ k _ _ _ _ _) => k = OCustom | _ => True end ->
  sound (cust_eff pi o m).
Proof.
  intros H. unfold cust_eff. destruct (get pi (m_root m)) as [[]|] eqn:Hg; auto. intros ->.
  eapply sound_upd; eauto. eapply refit_trans; [|apply refit_pops].
  intros s Hf. inversion Hf; subst. constructor; auto. destruct (co_new o); auto. constructor.
Qed.

(** Parsers whose value is always of its type, set or not. *)
Definition free (p : parser) : Prop :=
  match p with PObj _ OAuto _ _ _ _ _ => False | PUni _ true _ _ _ _ _ _ _ => False | _ => True end.

Lemma refit_set_free x p : free p -> refit p (set_set x p).
Proof.
  intros Hp s H. destruct H; simpl in *; try (econstructor; eauto; fail).
  - constructor; auto. destruct k; auto; contradiction.
  - constructor; auto. intros ->; contradiction.
Qed.

Lemma same_kind_with_base p b : same_kind p (with_base p b).
Proof. destruct p; simpl; auto. Qed.

(** Writing twice to one node. *)
Lemma upd_upd m pi p q q' : get pi (m_root m) = Some p -> same_kind p q -> same_kind p q' ->
  upd (upd m pi q') pi q = upd m pi q.
Proof. intros H K1 K2. unfold upd. simpl. erewrite put_put; eauto. Qed.

Lemma set_values_fit ss ms ign cb : Forall (fun mp => forall d, m_def (fst mp) = Some d -> typed (snd mp) d) ss ->
  Forall2 (fun sp mp : mspec * _ => fst sp = fst mp /\ fit (snd sp) (snd mp)) ss ms ->
  forall ms' x, set_values E ms = (ms', x) ->
  Forall2 (fun sp mp : mspec * _ => fst sp = fst mp /\ fit (snd sp) (snd mp)) ss ms' /\
  match x with inl _ => True | inr vs => typed (SObj OAuto ss ign cb) (VTup vs) end.
Proof.
  intros Hd H. induction H as [|[m c] [m' p] r r' [H1 H2] Hr IH]; simpl; intros ms' x Hx.
  - injection Hx as <- <-. split; constructor; auto.
  - simpl in H1, H2. subst m'. inversion Hd as [|? ? D1 D2]; subst. destruct (set_values E r') as [r'' y] eqn:Hy.
    destruct (IH D2 _ _ eq_refl) as [K1 K2].
    destruct y as [e|vs]; [injection Hx as <- <-; split; auto; constructor; auto|].
    destruct (is_set p).
    + destruct (pop_value p) as [[v p']|] eqn:Hp; [destruct (e_store E v)|]; injection Hx as <- <-.
      * destruct (fit_pop H2 Hp) as [P1 P2]. split; auto.
      * destruct (fit_pop H2 Hp) as [P1 P2]. split; [constructor; auto|].
        inversion K2; subst. constructor. constructor; auto.
      * split; auto; constructor; auto.
    + destruct (m_opt m); [|injection Hx as <- <-; split; auto; constructor; auto].
      destruct (m_def m) as [d|] eqn:Hm; [destruct (e_store E d)|]; injection Hx as <- <-.
      * split; auto; constructor; auto.
      * split; [constructor; auto|]. inversion K2; subst. constructor. constructor; auto.
      * split; auto; constructor; auto.
Qed.

Lemma uni_set_fit ss ms cur t tm cb : cur < List.length ms ->
  Forall (fun mp => forall d, m_def (fst mp) = Some d -> typed (snd mp) d) ss ->
  Forall2 (fun sp mp : mspec * _ => fst sp = fst mp /\ fit (snd sp) (snd mp)) ss ms ->
  forall ms' x, uni_set_value E cur ms = (ms', x) ->
  Forall2 (fun sp mp : mspec * _ => fst sp = fst mp /\ fit (snd sp) (snd mp)) ss ms' /\
  List.length ms' = List.length ms /\
  match x with
  | inl _ => True
  | inr o => exists v, o = Some (VVar cur v) /\ typed (SUni true t tm ss cb) (VVar cur v)
  end.
Proof.
  intros Hl Hd H ms' x. unfold uni_set_value. destruct (nth_error ms cur) as [[m p]|] eqn:Hn.
  2:{ apply nth_error_None in Hn. lia. }
  destruct (fit2_nth _ H Hn) as ([m' c] & K1 & K2 & K3). simpl in K2, K3. subst m'.
  destruct (is_set p).
  - destruct (pop_value p) as [[v p']|] eqn:Hp; intros He; injection He as <- <-.
    + destruct (fit_pop K3 Hp) as [P1 P2]. split; [|split].
      * unfold set_mem. rewrite Hn. eapply fit2_set; eauto. simpl. intros s Hs.
        unfold pop_value in Hp. destruct (get_value p); [|discriminate]. injection Hp as _ <-. apply refit_unset; auto.
      * apply set_mem_length.
      * destruct (e_store E v); auto. exists v. split; auto. econstructor; eauto.
    + auto.
  - destruct (m_opt m); [|intros He; injection He as <- <-; auto].
    destruct (m_def m) as [d|] eqn:Hm; intros He; injection He as <- <-; auto.
    split; [|split]; auto. destruct (e_store E d); auto. exists d. split; auto. econstructor; eauto.
    rewrite Forall_forall in Hd. apply (Hd (m, c)); auto. eapply nth_error_In; eauto.
Qed.

Lemma okt_finish m pi p : sound m -> get pi (m_root m) = Some p ->
  okt (Model.finish E pi (upd m pi (set_set true p))).
Proof.
  intros H Hg. unfold Model.finish. apply okt_at. intros p' Hp'.
  assert (Hp : p' = set_set true p).
  { simpl in Hp'. erewrite get_put_same in Hp'; eauto; [congruence|apply same_kind_with_base]. }
  subst p'. clear Hp'.
  destruct H as [HF HL]. destruct (fit_get pi HF Hg) as (s & Hs & Hpart). pose proof (conj HF HL : sound m) as H.
  assert (Hfree : free p -> sound (upd m pi (set_set true p))).
  { intros Hf. eapply sound_upd; eauto using refit_set_free. }
  assert (Hup : forall q, same_kind p q -> refit p q -> sound (upd (upd m pi (set_set true p)) pi q)).
  { intros q K1 K2. erewrite upd_upd; eauto using same_kind_with_base. eapply sound_upd; eauto. }
  assert (Hpops : forall o m', sound m' -> m_root m' = m_root (upd m pi (set_set true p)) -> sound (pops_eff pi o m')).
  { intros; apply sound_pops; auto. }
  assert (Hno : forall M (o : cbout) m', sound m' -> m_root m' = m_root M -> sound (no_eff o m')) by auto.
  destruct Hs as [b t v cb x Hv Ht|b sd st vals s e cb Hv He|b st key vals s e ecb cb Hv He
                 |b k v ss ms ig ign cb Hv Hd Hm|b st v t tm cur ss ms ig cb Hv Hd Hm|i];
    try destruct b as [bd bs be];
    cbn [set_set with_base base_of b_set b_empty b_disp free] in *.
  - apply okt_run_cb; [apply Hfree; exact I| |apply Hno]. intros i ->. destruct Hpart as [Hpart|Hpart]; [discriminate|].
    eapply to_fin; [exact Hpart|]. simpl. split; auto. exists v. split; auto. subst. constructor; auto.
  - destruct st; (apply okt_run_cb; [apply Hfree; exact I| |first [apply Hno|apply Hpops]]);
      intros i ->; (destruct Hpart as [Hpart|Hpart]; [discriminate|]); (eapply to_fin; [exact Hpart|]);
      simpl; (split; [auto|]).
    + exists (VVec vals). split; auto. destruct Hv; [|discriminate]. constructor; auto.
    + eexists. split; [reflexivity|]. split; auto.
      apply fit_view with (p := PArr (mkB bd true be) sd false vals e (Some i)). constructor; auto.
  - apply okt_run_cb; [apply Hfree; exact I| |apply Hpops].
    intros i ->; (destruct Hpart as [Hpart|Hpart]; [discriminate|]); (eapply to_fin; [exact Hpart|]).
    simpl; (split; [auto|]). eexists. split; [reflexivity|]. split; auto.
    apply fit_view with (p := PMap (mkB bd true be) st key vals e ecb (Some i)). constructor; auto.
  - destruct be.
    { apply Hup; [simpl; auto|]. apply (@refit_unset (PObj (mkB bd bs true) k v ms ig ign cb)). }
    destruct k.
    + destruct (check_members E ms).
      * apply Hup; [simpl; auto|]. apply (@refit_unset (PObj (mkB bd bs false) OPlain v ms ig ign cb)).
      * apply okt_run_cb; [apply Hfree; exact I| |apply Hpops].
        intros i ->; (destruct Hpart as [Hpart|Hpart]; [discriminate|]); (eapply to_fin; [exact Hpart|]).
        simpl; (split; [auto|]). eexists. split; [reflexivity|]. split; auto.
        apply fit_view with (p := PObj (mkB bd true false) OPlain v ms ig ign (Some i)). constructor; auto.
    + destruct (set_values E ms) as [ms' [e|vs]] eqn:Hx.
      * apply Hup; [simpl; auto|]. intros s K. inversion K; subst. constructor; auto; [discriminate|].
        match goal with K3 : Forall _ ?z, K4 : Forall2 _ ?z _ |- Forall2 _ ?z _ => 
             apply (@set_values_fit _ _ ign cb K3 K4 _ _ Hx) end.
      * destruct (@set_values_fit _ _ ign cb Hd Hm _ _ Hx) as [K1 K2].
        apply okt_run_cb; [| |apply Hno].
        -- apply Hup; [simpl; auto|]. intros s K. inversion K; subst.
           match goal with K3 : Forall _ ?z, K4 : Forall2 _ ?z _ |- fit (SObj OAuto ?z _ _) _ => 
             destruct (@set_values_fit _ _ ign cb K3 K4 _ _ Hx) as [K5 K6] end.
           constructor; auto.
        -- intros i ->; (destruct Hpart as [Hpart|Hpart]; [discriminate|]); (eapply to_fin; [exact Hpart|]).
           simpl; (split; [auto|]). eauto.
    + destruct (check_members E ms).
      * apply Hup; [simpl; auto|]. apply (@refit_unset (PObj (mkB bd bs false) OCustom v ms ig ign cb)).
      * apply okt_run_cb; [apply Hfree; exact I| |].
        -- intros i ->; (destruct Hpart as [Hpart|Hpart]; [discriminate|]); (eapply to_fin; [exact Hpart|]).
           simpl; (split; [auto|]). eexists. exists v. split; [reflexivity|]. split; auto. split; auto.
           apply fit_view with (p := PObj (mkB bd true false) OCustom v ms ig ign (Some i)). constructor; auto.
        -- intros o m' K1 K2. apply sound_cust; auto. rewrite K2. simpl. erewrite get_put_same; eauto. simpl; auto.
  - destruct be.
    { apply Hup; [simpl; auto|]. apply (@refit_unset (PUni (mkB bd bs true) st v t tm cur ms ig cb)). }
    destruct st.
    + destruct (Hv eq_refl) as [Hl _]. destruct (uni_set_value E cur ms) as [ms' [e|o]] eqn:Hx.
      * apply Hup; [simpl; auto|]. intros s K. inversion K; subst. 
        match goal with K3 : Forall _ ?z, K4 : Forall2 _ ?z _ |- fit (SUni true _ _ ?z _) _ => 
             destruct (@uni_set_fit _ _ cur t tm cb Hl K3 K4 _ _ Hx) as (K5 & K6 & _) end.
        constructor; auto. intros _. split; [lia|discriminate].
      * destruct (@uni_set_fit _ _ cur t tm cb Hl Hd Hm _ _ Hx) as (K1 & K2 & w & -> & K3).
        apply okt_run_cb; [| |apply Hno].
        -- apply Hup; [simpl; auto|]. intros s K. inversion K; subst.
           match goal with K3 : Forall _ ?z, K4 : Forall2 _ ?z _ |- fit (SUni true _ _ ?z _) _ => 
             destruct (@uni_set_fit _ _ cur t tm cb Hl K3 K4 _ _ Hx) as (K5 & K6 & w' & K7 & K8) end.
           injection K7 as <-. constructor; auto. intros _. split; [lia|]. eauto.
        -- intros i ->; (destruct Hpart as [Hpart|Hpart]; [discriminate|]); (eapply to_fin; [exact Hpart|]).
           simpl; (split; [auto|]). eauto.
    + destruct (uni_check cur ms).
      * apply Hup; [simpl; auto|]. apply (@refit_unset (PUni (mkB bd bs false) false v t tm cur ms ig cb)).
      * apply okt_run_cb; [apply Hfree; exact I| |apply Hpops].
        intros i ->; (destruct Hpart as [Hpart|Hpart]; [discriminate|]); (eapply to_fin; [exact Hpart|]).
        simpl; (split; [auto|]). eexists. split; [reflexivity|]. split; auto.
        apply fit_view with (p := PUni (mkB bd true false) false v t tm cur ms ig (Some i)). constructor; auto. discriminate.
  - simpl. apply (Hfree I).
Qed.

Section Step.
Variable rec : call -> mstate -> res.
Hypothesis IH : forall c m, sound m -> okt (rec c m).

Lemma okt_pop_if d m : sound m -> okt (pop_if_disp g rec d m).
Proof. intros H. unfold pop_if_disp. destruct d; auto. apply okt_deref. apply IH; auto. Qed.

Lemma okt_null m pi p : sound m -> get pi (m_root m) = Some p -> okt (on_null g rec pi p m).
Proof. intros H Hg. apply okt_pop_if. eapply sound_upd; eauto using refit_reset. Qed.

Lemma okt_member A pi p (ms : list (mspec * A)) ign nm m : sound m -> get pi (m_root m) = Some p ->
  okt (on_member E g pi p ms ign nm m).
Proof.
  intros H Hg. unfold on_member.
  assert (K : sound (upd m pi (set_not_empty p))) by (eapply sound_upd; eauto using refit_not_empty).
  destruct (lookup nm ms); [apply okt_deref; auto|]. destruct ign; [apply okt_deref; auto|auto].
Qed.

Lemma okt_body c m : sound m -> okt (call_body E g rec c m).
Proof.
  intros H. destruct c as [|t|pi t|pi|pi]; simpl.
  - unfold body_pop. destruct (m_stack m) as [|q [|q' r]]; auto; simpl; auto.
  - unfold body_disp. destruct (m_stack m); simpl; auto.
  - unfold body_on. apply okt_at. intros p Hg.
    assert (Hup : forall q, refit p q -> sound (upd m pi q)) by (intros; eapply sound_upd; eauto).
    pose proof (okt_null _ H Hg) as Hnull.
    destruct p.
    + unfold on_val. destruct t; try exact H; auto.
      destruct (takes_scalar t0 x) eqn:Hx; [|exact H]. apply IH, Hup.
      intros s K. inversion K; subst. econstructor; eauto. rewrite takes_scalar_eq in Hx. apply vtype_eqb_eq; auto.
    + assert (Henter : okt (arr_enter g rec pi (PArr b started store vals p cb) t m)).
      { unfold arr_enter. apply okt_deref. apply IH. apply sound_stack. apply Hup.
        eapply refit_trans; [|apply refit_not_empty]. intros s K. inversion K; subst. constructor; auto.
        apply refit_set_disp; auto. }
      unfold on_arr. destruct t; try exact H.
      * destruct started; [apply IH; auto|auto].
      * destruct started; [|exact H]. apply okt_bind; [apply IH; auto|]. intros m1 K1.
        apply okt_at. intros p1 Hp1. apply IH. eapply sound_upd; eauto using refit_not_empty.
      * destruct started; [|exact H]. auto.
      * destruct started; [auto|]. apply Hup. intros s K. apply refit_reset in K. cbn [reset] in K.
        inversion K; subst. constructor; auto.
      * apply IH, Hup. intros s K. inversion K; subst. constructor; auto.
    + unfold on_map. destruct t; try exact H; auto.
      * apply Hup, refit_reset.
      * apply okt_deref. apply sound_stack. apply Hup. eapply refit_trans; [|apply refit_not_empty].
        intros s K. inversion K; subst. constructor; auto.
    + unfold on_obj. destruct t; try exact H; auto.
      * apply Hup, refit_reset.
      * apply okt_member; auto.
    + unfold on_uni. destruct t; try exact H; auto.
      * destruct (takes_scalar t0 x); [|exact H].
        set (p1 := reset (PUni b store v t0 tm cur ms ig cb)).
        assert (K1 : sound (upd m pi p1)) by (apply Hup, refit_reset).
        assert (K2 : get pi (m_root (upd m pi p1)) = Some p1).
        { simpl. eapply get_put_same; eauto. simpl; auto. }
        pose proof (@okt_member _ pi p1 ms false x _ K1 K2) as K3. unfold on_member in *.
        destruct (lookup x ms) as [i|] eqn:Hl; [|exact K3].
        unfold deref in *. destruct (disp_of p1) as [d|]; [|exact I]. destruct (Nat.eqb d g); [|exact I].
        cbn [bind]. apply okt_at. intros p2 Hp2. cbn [okt] in K3.
        assert (K4 : p2 = set_not_empty p1).
        { unfold push, set_stack, upd in Hp2. cbn [m_root] in Hp2. cbn [upd m_root] in K2. rewrite (@get_put_same pi _ p1 (set_not_empty p1) K2) in Hp2 by (simpl; auto). congruence. }
        subst p2. simpl. eapply sound_upd; [exact K3|exact Hp2|].
        intros s K. inversion K; subst. constructor; auto.
        intros Hst. split; [|simpl; discriminate]. rewrite map_length. eapply lookup_lt; eauto.
      * destruct (String.eqb tm ""); [exact H|]. apply Hup, refit_reset.
      * destruct (String.eqb tm ""); [exact H|]. destruct (String.eqb k tm); exact H.
    + unfold on_ign.
      assert (Hig : forall st, sound (upd m pi (PIgn (mkI (ig_b i) st)))).
      { intros st. apply Hup. intros s K. inversion K; subst. constructor. }
      destruct t; auto; try apply Hig.
      * destruct (ig_st i); [apply IH; auto|exact H].
      * destruct (ig_st i) as [|[] r]; exact H.
      * destruct (ig_st i) as [|[] [|]]; try exact H; [apply IH, Hig|apply Hig].
      * destruct (ig_st i) as [|[] [|]]; try exact H; [apply IH, Hig|apply Hig].
  - unfold body_end. apply okt_at. intros p Hg. apply okt_bind; [apply okt_finish; auto|].
    intros m2 K2. apply okt_at. intros p2 _. apply okt_pop_if; auto.
  - unfold body_child. apply okt_at. intros p Hg. destruct p; auto.
    + destruct store; [|exact H]. destruct (pop_value p) as [[v e']|] eqn:Hp; [|exact H].
      destruct (e_store E v); (eapply sound_upd; eauto; intros s K; inversion K; subst;
        match goal with K1 : fit _ p |- _ => destruct (fit_pop K1 Hp) as [P1 P2] end;
        constructor; auto). left.
      match goal with K1 : _ \/ true = false |- _ => destruct K1; [|discriminate] end. apply Forall_app; auto.
    + destruct (fit_get pi (proj1 H) Hg) as (s & Hs & Hpart). apply okt_bind.
      * apply okt_run_cb; auto.
        -- intros i ->. inversion Hs; subst. destruct Hpart as [Hpart|Hpart]; [discriminate|].
           eapply to_elem; [exact Hpart|]. apply fit_view; auto.
        -- intros. apply sound_pops; auto.
      * intros m1 K1. destruct store; [|exact K1]. apply okt_at. intros p1 Hp1. destruct p1; try exact K1.
        destruct (pop_value p1) as [[v e']|] eqn:Hp; [|exact K1].
        destruct (e_store E v); (eapply sound_upd; eauto; intros s1 K; inversion K; subst;
          match goal with K1 : fit _ p1 |- _ => destruct (fit_pop K1 Hp) as [P1 P2] end;
          constructor; auto). destruct store; [|auto]. left.
        match goal with K1 : _ \/ true = false |- _ => destruct K1 as [[Q1 Q2]|]; [|discriminate] end.
        split; [apply (@insert_sorted _ key0 v vals0 Q1)|]. apply insert_typed; auto.
    + apply okt_bind; [apply IH; auto|]. intros m1 K1. destruct (String.eqb tm ""); [|exact K1].
      apply okt_at. intros p1 _. apply okt_deref. apply IH; auto.
Qed.
End Step.

Lemma okt_fault c m x m' : sound m -> In m' (faults g c m) -> okt (RThrow x m').
Proof.
  intros H Hin. apply (@faults_cases g (fun m' => okt (RThrow x m')) c m m' Hin); auto; cbn [okt]; intros; try (unfold push; apply sound_stack);
    (eapply sound_upd; [auto|eassumption|]); auto using refit_not_empty.
  - eapply refit_trans; [|apply refit_not_empty]. intros s K. inversion K; subst. constructor; auto.
    apply refit_set_disp; auto.
  - eapply refit_trans; [apply refit_reset|apply refit_not_empty].
  - eapply refit_trans; [apply refit_reset|apply refit_not_empty].
Qed.
End Run.

Lemma okt_exec E g sc l0 f : forall c m, sound sc l0 m -> okt sc l0 (exec E g f c m).
Proof.
  induction f as [|f IH]; intros c m H; [exact I|]. cbn [exec]. apply body_cases.
  - intros E' _ _ _. apply okt_body; auto.
  - intros x m' Hin. eapply okt_fault; eauto.
Qed.

Section Runs.
Variable E : env.
Variable g : nat.
Variable sc : schema.
Variable l0 : list event.
Notation sound := (sound sc l0).
Notation okt := (okt sc l0).

Lemma okt_run ts : forall m, sound m -> okt (run E g ts m).
Proof.
  induction ts as [|t ts IH]; simpl; intros m H; auto. apply okt_bind; auto. apply okt_exec; auto.
Qed.
End Runs.
