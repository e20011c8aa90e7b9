(** Callbacks that only look: parsing is the same without them. *)

From Verif Require Import Spec Model Infra Total Safe Refine Main Callbacks.
Local Open Scope string_scope.
Set Implicit Arguments.

(** The program's callbacks for which [X] is true are the onlookers. *)
Section Hide.
Variable X : cbid -> bool.

Definition hide_cb (c : option cbid) : option cbid :=
  match c with Some i => if X i then None else c | None => None end.

(** A parser without its onlookers. *)
Fixpoint hide (p : parser) : parser :=
  match p with
  | PVal b t v cb => PVal b t v (hide_cb cb)
  | PArr b sd st vals e cb => PArr b sd st vals (hide e) (hide_cb cb)
  | PMap b st key vals e ecb cb => PMap b st key vals (hide e) (hide_cb ecb) (hide_cb cb)
  | PObj b k v ms ig ign cb => PObj b k v (map (fun mp => (fst mp, hide (snd mp))) ms) ig ign (hide_cb cb)
  | PUni b st v t tm cur ms ig cb => PUni b st v t tm cur (map (fun mp => (fst mp, hide (snd mp))) ms) ig (hide_cb cb)
  | PIgn i => PIgn i
  end.

(** The invocations of the others. *)
Definition others (l : list event) : list event :=
  filter (fun e => match e with Ev c _ => negb (X c) end) l.

Definition hide_arg (a : cbarg) : cbarg :=
  match a with
  | AVal v => AVal v
  | ASelf p => ASelf (hide p)
  | AElem k p => AElem k (hide p)
  | ACust p v => ACust (hide p) v
  end.

(** The onlookers return true, call no pop() and write no value; the others do not
    depend on them; there is enough memory. *)
Definition onlookers (E : env) : Prop :=
  (forall c l T a, X c = true -> e_cb E c l T a = mkCO [] [] None CTrue) /\
  (forall c l T a, X c = false -> e_cb E c l T a = e_cb E c (others l) (hide T) (hide_arg a)) /\
  (forall c m, e_alloc E c m = None).

(** The state without onlookers. *)
Definition plain (m : mstate) : mstate := mkS (hide (m_root m)) (m_stack m) (others (m_log m)).

Definition erase (r : res) : res :=
  match r with
  | ROk m => ROk (plain m)
  | RThrow e m => RThrow e (plain m)
  | RUB u => RUB u
  | RFuel => RFuel
  end.

Notation um := (map (fun mp : mspec * parser => (fst mp, hide (snd mp)))).

Lemma base_hide p : base_of (hide p) = base_of p.
Proof. destruct p; reflexivity. Qed.
Lemma disp_hide p : disp_of (hide p) = disp_of p.
Proof. unfold disp_of. rewrite base_hide. reflexivity. Qed.
Lemma is_set_hide p : is_set (hide p) = is_set p.
Proof. unfold is_set. rewrite base_hide. reflexivity. Qed.
Lemma set_set_hide x p : set_set x (hide p) = hide (set_set x p).
Proof. destruct p; reflexivity. Qed.
Lemma not_empty_hide p : set_not_empty (hide p) = hide (set_not_empty p).
Proof. destruct p; reflexivity. Qed.
Lemma stored_hide p : stored (hide p) = stored p.
Proof. destruct p; reflexivity. Qed.
Lemma get_value_hide p : get_value (hide p) = get_value p.
Proof. unfold get_value. rewrite is_set_hide, stored_hide. reflexivity. Qed.
Lemma pop_hide p : pop_value (hide p) = option_map (fun x => (fst x, hide (snd x))) (pop_value p).
Proof. unfold pop_value. rewrite get_value_hide. destruct (get_value p); simpl; [rewrite set_set_hide|]; auto. Qed.

Lemma set_disp_hide d p : set_disp d (hide p) = hide (set_disp d p).
Proof.
  induction p as [| | ? ? ? ? ? ? ? IH | ? ? ? ? ? ? ? IH | ? ? ? ? ? ? ? ? ? IH |] using parser_ind'; simpl; auto.
  - f_equal. exact IH.
  - f_equal. rewrite !map_map. induction IH as [|[m q] r Hq _ IHr]; simpl in *; congruence.
  - f_equal. rewrite !map_map. induction IH as [|[m q] r Hq _ IHr]; simpl in *; congruence.
Qed.

Lemma dflt_hide p : dflt (hide p) = dflt p.
Proof.
  induction p as [| | ? ? ? ? ? ? ? IH | b k v ms ig ign cb IH | b st v t tm cur ms ig cb IH |] using parser_ind'; simpl; auto.
  - destruct k; auto. f_equal. rewrite map_map. induction IH as [|[m q] r Hq _ IHr]; simpl in *; congruence.
  - destruct IH as [|[m q] r Hq _]; simpl in *; congruence.
Qed.

Lemma reset_hide p : reset (hide p) = hide (reset p).
Proof.
  induction p as [| ? ? ? ? ? ? IH | | b k v ms ig ign cb IH | b st v t tm cur ms ig cb IH |] using parser_ind'; auto.
  - simpl. congruence.
  - pose proof (dflt_hide (PObj b k v ms ig ign cb)) as D. cbn [reset hide] in *. rewrite D. clear D. f_equal.
    rewrite !map_map. induction IH as [|[m q] r Hq _ IHr]; simpl in *; congruence.
  - pose proof (dflt_hide (PUni b st v t tm cur ms ig cb)) as D. cbn [reset hide] in *. rewrite D. clear D. f_equal.
    rewrite !map_map. induction IH as [|[m q] r Hq _ IHr]; simpl in *; congruence.
Qed.

Lemma height_hide p : height (hide p) = height p.
Proof.
  assert (K : forall ms, Forall (fun mp : mspec * parser => height (hide (snd mp)) = height (snd mp)) ms ->
    map (fun mp => height (snd mp)) (um ms) = map (fun mp => height (snd mp)) ms).
  { intros ms H. rewrite map_map. simpl. induction H; simpl; congruence. }
  induction p as [| ? ? ? ? ? ? IH | ? ? ? ? ? ? ? IH | ? ? ? ? ? ? ? IH | ? ? ? ? ? ? ? ? ? IH |] using parser_ind';
    cbn [hide height]; try rewrite (K _ IH); auto.
Qed.

Lemma view_hide p : view_of (hide p) = view_of p.
Proof.
  induction p as [| | | b k v ms ig ign cb IH | b st v t tm cur ms ig cb IH |] using parser_ind'; auto.
  - cbn [hide view_of base_of]. f_equal. rewrite map_map. simpl. induction IH as [|[m q] r Hq _ IHr]; simpl in *; congruence.
  - cbn [hide view_of base_of]. f_equal. rewrite map_map. simpl. induction IH as [|[m q] r Hq _ IHr]; simpl in *; congruence.
Qed.

Lemma child_hide p x : child (hide p) x = option_map hide (child p x).
Proof.
  destruct p, x; simpl; auto; rewrite nth_error_map; destruct (nth_error ms n); auto.
Qed.

Lemma get_hide pi : forall p, get pi (hide p) = option_map hide (get pi p).
Proof.
  induction pi as [|x pi IH]; intros p; simpl; auto. rewrite child_hide. destruct (child p x); simpl; auto.
Qed.

Lemma um_nth ms n : nth_error (um ms) n = option_map (fun mp => (fst mp, hide (snd mp))) (nth_error ms n).
Proof. apply nth_error_map. Qed.

Lemma set_mem_hide n q ms : set_mem n (hide q) (um ms) = um (set_mem n q ms).
Proof.
  unfold set_mem. rewrite um_nth. destruct (nth_error ms n) as [mp|]; simpl; auto. rewrite map_set_nth. reflexivity.
Qed.

Lemma set_child_hide p x q : set_child (hide p) x (hide q) = hide (set_child p x q).
Proof.
  destruct p, x; simpl; auto; try (rewrite set_mem_hide; reflexivity).
  - destruct q; reflexivity.
  - destruct q; reflexivity.
Qed.

Lemma put_hide pi : forall q p, put pi (hide q) (hide p) = hide (put pi q p).
Proof.
  induction pi as [|x pi IH]; intros q p; simpl; auto. rewrite child_hide. destruct (child p x); simpl; auto.
  rewrite IH, set_child_hide. reflexivity.
Qed.

Lemma lookup_hide nm (ms : list (mspec * parser)) : lookup nm (um ms) = lookup nm ms.
Proof. apply lookup_map. Qed.

Lemma upd_hide m pi q : upd (plain m) pi (hide q) = plain (upd m pi q).
Proof. unfold upd, plain. simpl. rewrite put_hide. reflexivity. Qed.

Section Onlooker.
Variable E : env.
Variable g : nat.
Hypothesis HE : onlookers E.

Lemma erase_bind r k k' : (forall m, erase (k m) = k' (plain m)) -> erase (bind r k) = bind (erase r) k'.
Proof. destruct r; simpl; auto. Qed.

Lemma erase_at m pi k k' : (forall p, get pi (m_root m) = Some p -> erase (k p) = k' (hide p)) ->
  erase (at_node m pi k) = at_node (plain m) pi k'.
Proof.
  unfold at_node, plain. simpl. rewrite get_hide. destruct (get pi (m_root m)); simpl; auto.
Qed.

Lemma erase_deref d r r' : erase r = r' -> erase (deref g d r) = deref g d r'.
Proof. unfold deref. destruct d; simpl; auto. destruct (Nat.eqb n g); auto. Qed.

Lemma unset_hide p rel : unset_at (hide p) rel = hide (unset_at p rel).
Proof.
  unfold unset_at. rewrite get_hide. destruct (get rel p) as [q|]; simpl; auto. rewrite stored_hide.
  destruct (stored q); auto. rewrite set_set_hide, put_hide. reflexivity.
Qed.

Lemma pops_hide rels : forall p, apply_pops rels (hide p) = hide (apply_pops rels p).
Proof.
  unfold apply_pops. induction rels as [|r rels IH]; intros p; simpl; auto. rewrite unset_hide. apply IH.
Qed.

Lemma plain_pops pi o m : plain (pops_eff pi o m) = pops_eff pi o (plain m).
Proof.
  unfold pops_eff. simpl. rewrite get_hide. destruct (get pi (m_root m)) as [p|] eqn:Hg; simpl; auto.
  rewrite pops_hide, upd_hide. reflexivity.
Qed.

Lemma plain_cust pi o m : plain (cust_eff pi o m) = cust_eff pi o (plain m).
Proof.
  unfold cust_eff. simpl. rewrite get_hide. destruct (get pi (m_root m)) as [[]|] eqn:Hg; simpl; auto.
  rewrite <- upd_hide, <- pops_hide. reflexivity.
Qed.

Lemma idle_pops pi m : pops_eff pi (mkCO [] [] None CTrue) m = m.
Proof.
  unfold pops_eff. destruct (get pi (m_root m)) as [p|] eqn:Hg; auto.
  unfold upd. simpl. rewrite put_same; auto. destruct m; auto.
Qed.

Lemma idle_cust pi m : cust_eff pi (mkCO [] [] None CTrue) m = m.
Proof.
  unfold cust_eff. destruct (get pi (m_root m)) as [[]|] eqn:Hg; auto. 
  unfold upd. simpl. rewrite put_same; auto. destruct m; auto.
Qed.

Lemma obs_hide a : obs_of (hide_arg a) = obs_of a.
Proof. destruct a; simpl; rewrite ?view_hide; auto. Qed.

Lemma plain_away rels : forall m, plain (away rels m) = away rels (plain m).
Proof.
  unfold away. induction rels as [|r rels IH]; intros m; simpl; auto. rewrite IH. f_equal.
  unfold plain. simpl. rewrite unset_hide. reflexivity.
Qed.

Lemma erase_run_cb c a a' eff msg m m' :
  a' = hide_arg a -> m' = plain m ->
  (forall o s, plain (eff o s) = eff o (plain s)) -> (forall s, eff (mkCO [] [] None CTrue) s = s) ->
  erase (run_cb E c a eff msg m) = run_cb E (hide_cb c) a' eff msg m'.
Proof.
  intros -> -> He Hi. destruct HE as (H1 & H2 & _). unfold run_cb. destruct c as [c|]; auto. cbn [hide_cb].
  destruct (X c) eqn:Hc.
  - rewrite H1; auto. simpl. rewrite Hi. unfold plain, add_log, others. simpl. rewrite filter_app. simpl. rewrite Hc. simpl.
    rewrite app_nil_r. reflexivity.
  - rewrite (H2 c (m_log m) (m_root m) a Hc). change (others (m_log m)) with (m_log (plain m)).
    change (hide (m_root m)) with (m_root (plain m)).
    set (o := e_cb E c (m_log (plain m)) (m_root (plain m)) (hide_arg a)).
    assert (K : plain (eff o (add_log m (Ev c (obs_of a)))) = eff o (add_log (plain m) (Ev c (obs_of (hide_arg a))))).
    { rewrite He. f_equal. rewrite obs_hide. unfold plain, add_log, others. simpl. rewrite filter_app. simpl. rewrite Hc. reflexivity. }
    destruct (co_res o); cbn [erase]; rewrite plain_away, K; reflexivity.
Qed.

Lemma check_members_hide ms : check_members E (um ms) = check_members E ms.
Proof.
  induction ms as [|[m p] r IH]; simpl; auto. rewrite IH, is_set_hide. reflexivity.
Qed.

Lemma set_values_hide ms : set_values E (um ms) = (um (fst (set_values E ms)), snd (set_values E ms)).
Proof.
  induction ms as [|[m p] r IH]; simpl; auto. rewrite IH. destruct (set_values E r) as [r' [e|vs]]; simpl; auto.
  rewrite is_set_hide, pop_hide. destruct (is_set p).
  - destruct (pop_value p) as [[v p']|]; [cbn [option_map fst snd]; destruct (e_store E v)|]; reflexivity.
  - destruct (m_opt m); auto. destruct (m_def m) as [d|]; auto. destruct (e_store E d); auto.
Qed.

Lemma uni_check_hide cur ms : uni_check cur (um ms) = uni_check cur ms.
Proof.
  unfold uni_check. rewrite um_nth. destruct (nth_error ms cur) as [[m p]|]; simpl; auto. rewrite is_set_hide. reflexivity.
Qed.

Lemma uni_set_hide cur ms : uni_set_value E cur (um ms) = (um (fst (uni_set_value E cur ms)), snd (uni_set_value E cur ms)).
Proof.
  unfold uni_set_value. rewrite um_nth. destruct (nth_error ms cur) as [[m p]|]; simpl; auto.
  rewrite is_set_hide, pop_hide. destruct (is_set p).
  - destruct (pop_value p) as [[v p']|]; simpl; auto. rewrite set_mem_hide. reflexivity.
  - destruct (m_opt m); auto. destruct (m_def m); auto.
Qed.

Lemma erase_finish pi m : erase (Model.finish E pi m) = Model.finish E pi (plain m).
Proof.
  unfold Model.finish. apply erase_at. intros p Hg.
  destruct p; cbn [hide].
  - apply erase_run_cb; auto.
  - destruct store; apply erase_run_cb; auto using plain_pops, idle_pops.
  - apply erase_run_cb; auto using plain_pops, idle_pops.
  - destruct (b_empty b).
    { simpl. f_equal. symmetry. exact (upd_hide m pi (set_set false (PObj b k v ms ig ign cb))). }
    destruct k.
    + rewrite check_members_hide. destruct (check_members E ms).
      * simpl. f_equal. symmetry. exact (upd_hide m pi (set_set false (PObj b OPlain v ms ig ign cb))).
      * apply erase_run_cb; auto using plain_pops, idle_pops.
    + rewrite set_values_hide. destruct (set_values E ms) as [ms' [e|vs]]; cbn [fst snd].
      * simpl. f_equal. symmetry. exact (upd_hide m pi (set_set false (PObj b OAuto v ms' ig ign cb))).
      * apply erase_run_cb; auto. exact (upd_hide m pi (PObj b OAuto (VTup vs) ms' ig ign cb)).
    + rewrite check_members_hide. destruct (check_members E ms).
      * simpl. f_equal. symmetry. exact (upd_hide m pi (set_set false (PObj b OCustom v ms ig ign cb))).
      * apply erase_run_cb; auto using plain_cust, idle_cust.
  - destruct (b_empty b).
    { simpl. f_equal. symmetry. exact (upd_hide m pi (set_set false (PUni b store v t tm cur ms ig cb))). }
    destruct store.
    + rewrite uni_set_hide. destruct (uni_set_value E cur ms) as [ms' [e|o]]; cbn [fst snd].
      * simpl. f_equal. symmetry. exact (upd_hide m pi (set_set false (PUni b true v t tm cur ms' ig cb))).
      * apply erase_run_cb; auto.
        exact (upd_hide m pi (PUni b true (match o with Some w => w | None => v end) t tm cur ms' ig cb)).
    + rewrite uni_check_hide. destruct (uni_check cur ms).
      * simpl. f_equal. symmetry. exact (upd_hide m pi (set_set false (PUni b false v t tm cur ms ig cb))).
      * apply erase_run_cb; auto using plain_pops, idle_pops.
  - reflexivity.
Qed.

Section Step.
Variable rec : call -> mstate -> res.
Hypothesis IH : forall c m, erase (rec c m) = rec c (plain m).

Lemma erase_pop_if d m : erase (pop_if_disp g rec d m) = pop_if_disp g rec d (plain m).
Proof. unfold pop_if_disp. destruct d; auto. apply erase_deref. apply IH. Qed.

Lemma erase_null pi p m : erase (on_null g rec pi p m) = on_null g rec pi (hide p) (plain m).
Proof. unfold on_null. rewrite erase_pop_if, disp_hide, reset_hide, upd_hide. reflexivity. Qed.

Lemma erase_member pi p (ms : list (mspec * parser)) ign nm m :
  erase (on_member E g pi p ms ign nm m) = on_member E g pi (hide p) (um ms) ign nm (plain m).
Proof.
  unfold on_member. rewrite lookup_hide, disp_hide, not_empty_hide, upd_hide.
  destruct (lookup nm ms); [apply erase_deref; reflexivity|]. destruct ign; [apply erase_deref; reflexivity|reflexivity].
Qed.

Lemma erase_rec c m m' : m' = plain m -> erase (rec c m) = rec c m'.
Proof. intros ->. apply IH. Qed.

Lemma erase_body c m : erase (Model.body E g rec c m) = Model.body E g rec c (plain m).
Proof.
  unfold Model.body. rewrite !(proj2 (proj2 HE)).
  destruct c as [|t|pi t|pi|pi]; cbn [call_body].
  - unfold body_pop. simpl. destruct (m_stack m) as [|q [|q' r]]; auto. apply erase_rec. reflexivity.
  - unfold body_disp. simpl. destruct (m_stack m); auto.
  - unfold body_on. apply erase_at. intros p Hg.
    destruct p; cbn [hide].
    + unfold on_val. destruct t; auto.
      * exact (erase_null pi (PVal b t0 v cb) m).
      * destruct (takes_scalar t0 x); auto. apply erase_rec.
        exact (upd_hide m pi (PVal (mkB (b_disp b) (b_set b) false) t0 (VSc x) cb)).
    + assert (Henter : erase (arr_enter g rec pi (PArr b started store vals p cb) t m) =
                       arr_enter g rec pi (PArr b started store vals (hide p) (hide_cb cb)) t (plain m)).
      { unfold arr_enter. apply erase_deref. apply erase_rec. rewrite set_disp_hide.
        unfold push. f_equal.
        exact (f_equal (fun x => set_stack x _) (upd_hide m pi (set_not_empty (PArr b started store vals (set_disp (b_disp b) p) cb)))). }
      unfold on_arr. destruct t; auto.
      * destruct started; auto. exact (erase_null pi (PArr b false store vals p cb) m).
      * destruct started; auto. rewrite <- IH. apply erase_bind. intros m1. apply erase_at. intros p1 Hp1.
        apply erase_rec. rewrite not_empty_hide. apply upd_hide.
      * destruct started; auto.
      * destruct started; auto. cbn [reset]. rewrite reset_hide. simpl. f_equal. symmetry.
        exact (upd_hide m pi (PArr (reset_base b) true store (if store then [] else vals) (reset p) cb)).
      * apply erase_rec. exact (upd_hide m pi (PArr b false store vals p cb)).
    + unfold on_map. destruct t; auto.
      * exact (erase_null pi (PMap b store key vals p ecb cb) m).
      * simpl. f_equal. symmetry. exact (upd_hide m pi (reset (PMap b store key vals p ecb cb))).
      * apply erase_deref. cbn [erase]. f_equal.
        exact (f_equal (fun x => push x _) (eq_sym (upd_hide m pi (set_not_empty (PMap b store k vals p ecb cb))))).
    + unfold on_obj. destruct t; auto.
      * exact (erase_null pi (PObj b k v ms ig ign cb) m).
      * cbn [erase]. f_equal. rewrite <- upd_hide, <- reset_hide. reflexivity.
      * exact (erase_member pi (PObj b k v ms ig ign cb) ms ign (SStr k0) m).
    + unfold on_uni. destruct t; auto.
      * exact (erase_null pi (PUni b store v t0 tm cur ms ig cb) m).
      * destruct (takes_scalar t0 x); auto.
        set (p := PUni b store v t0 tm cur ms ig cb).
        change (PUni b store v t0 tm cur (um ms) ig (hide_cb cb)) with (hide p). rewrite reset_hide, upd_hide, <- erase_member.
        apply erase_bind. intros m2. apply erase_at. intros p2 _. rewrite lookup_hide.
        destruct p2; auto. cbn [hide]. destruct (lookup x ms) as [i|]; auto. simpl. f_equal. symmetry.
        exact (upd_hide m2 pi (PUni b0 store0 v0 t tm0 i ms0 ig0 cb0)).
      * destruct (String.eqb tm ""); auto. cbn [erase]. f_equal. rewrite <- upd_hide, <- reset_hide. reflexivity.
      * destruct (String.eqb tm ""); auto. destruct (String.eqb k tm); auto.
    + unfold on_ign.
      assert (Hig : forall st, upd (plain m) pi (PIgn (mkI (ig_b i) st)) = plain (upd m pi (PIgn (mkI (ig_b i) st)))).
      { intros st. exact (upd_hide m pi (PIgn (mkI (ig_b i) st))). }
      destruct t; auto; try (rewrite Hig; reflexivity).
      * exact (erase_null pi (PIgn i) m).
      * destruct (ig_st i); auto.
      * destruct (ig_st i) as [|[] r]; auto.
      * destruct (ig_st i) as [|[] [|]]; auto; rewrite Hig; auto.
      * destruct (ig_st i) as [|[] [|]]; auto; rewrite Hig; auto.
  - unfold body_end. apply erase_at. intros p Hg. rewrite set_set_hide, upd_hide, <- erase_finish.
    apply erase_bind. intros m2. apply erase_at. intros p2 _. rewrite disp_hide. apply erase_pop_if.
  - unfold body_child. apply erase_at. intros p Hg. destruct p; auto; cbn [hide].
    + destruct store; auto. rewrite pop_hide. destruct (pop_value p) as [[v e']|]; auto. simpl.
      destruct (e_store E v); simpl; f_equal; symmetry;
        [exact (upd_hide m pi (PArr b started true vals e' cb))|exact (upd_hide m pi (PArr b started true (vals ++ [v])%list e' cb))].
    + rewrite <- (@erase_run_cb ecb (AElem key p) (AElem key (hide p)) (pops_eff (pi ++ [Elem])%list) e_ecb_false m (plain m))
        by auto using plain_pops, idle_pops.
      apply erase_bind. intros m1. destruct store; auto. apply erase_at. intros p1 _.
      destruct p1; auto. cbn [hide]. rewrite pop_hide. destruct (pop_value p1) as [[v e']|]; auto. simpl.
      destruct (e_store E v); simpl; f_equal; symmetry;
        [exact (upd_hide m1 pi (PMap b0 store key0 vals0 e' ecb0 cb0))
        |exact (upd_hide m1 pi (PMap b0 store key0 (std_insert key0 v vals0) e' ecb0 cb0))].
    + rewrite <- IH. apply erase_bind. intros m1. destruct (String.eqb tm ""); auto. apply erase_at. intros p1 _.
      rewrite disp_hide. apply erase_deref. apply IH.
Qed.
End Step.

Lemma erase_exec f : forall c m, erase (exec E g f c m) = exec E g f c (plain m).
Proof. induction f as [|f IH]; simpl; intros; auto. apply erase_body. exact IH. Qed.

Lemma erase_dispatch t m : erase (dispatch E g t m) = dispatch E g t (plain m).
Proof.
  unfold dispatch. rewrite erase_exec. unfold fuel_for, plain. simpl. rewrite height_hide. reflexivity.
Qed.

(** Every token sequence in every state. *)
Theorem erase_run ts : forall m, erase (run E g ts m) = run E g ts (plain m).
Proof.
  induction ts as [|t ts IH]; simpl; intros m; auto. rewrite <- erase_dispatch. apply erase_bind. exact IH.
Qed.
End Onlooker.
End Hide.
