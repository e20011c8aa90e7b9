(** How much is kept while skipping unknown members: the marks of the Ignore parsers. *)

From Verif Require Import Spec Model Infra Total Safe Refine Main Closed Accept Access Callbacks Typed.
Local Open Scope string_scope.
Set Implicit Arguments.

(** The entries of all Ignore::_structure (internals/ignore.h) of a declaration. *)
Fixpoint marks (p : parser) : nat :=
  match p with
  | PVal _ _ _ _ => 0
  | PArr _ _ _ _ e _ => marks e
  | PMap _ _ _ _ e _ _ => marks e
  | PObj _ _ _ ms ig _ _ | PUni _ _ _ _ _ _ ms ig _ =>
      List.length (ig_st ig) + list_sum (map (fun mp => marks (snd mp)) ms)
  | PIgn i => List.length (ig_st i)
  end.

Lemma sum_set_at n : forall (l : list nat) x y, nth_error l n = Some x ->
  list_sum (set_nth n y l) + x = list_sum l + y.
Proof.
  induction n as [|n IH]; intros [|z l] x y H; simpl in *; try discriminate.
  - injection H as <-. lia.
  - specialize (IH l x y H). lia.
Qed.

Lemma map_set_at A B (f : A -> B) n : forall x l, map f (set_nth n x l) = set_nth n (f x) (map f l).
Proof. induction n; intros x [|y l]; simpl; auto. rewrite IHn; auto. Qed.

Lemma sum_set_mem n q ms c : option_map snd (nth_error ms n) = Some c ->
  list_sum (map (fun mp : mspec * parser => marks (snd mp)) (set_mem n q ms)) + marks c =
  list_sum (map (fun mp => marks (snd mp)) ms) + marks q.
Proof.
  unfold set_mem. destruct (nth_error ms n) as [mp|] eqn:Hn; simpl; [|discriminate]. intros H. injection H as <-.
  rewrite map_set_at. apply sum_set_at. rewrite nth_error_map, Hn. reflexivity.
Qed.

Lemma marks_set_child p sp c q : child p sp = Some c -> fits sp q -> marks (set_child p sp q) + marks c = marks p + marks q.
Proof.
  destruct p, sp; simpl; intros H Hf; try discriminate; try (injection H as <-; simpl).
  - lia.
  - lia.
  - pose proof (sum_set_mem n q _ H). lia.
  - destruct q; simpl in *; try contradiction. lia.
  - pose proof (sum_set_mem n q _ H). lia.
  - destruct q; simpl in *; try contradiction. lia.
Qed.

Lemma marks_put pi : forall p q c, get pi p = Some c -> same_kind c q -> marks (put pi q p) + marks c = marks p + marks q.
Proof.
  induction pi as [|sp pi IH]; simpl; intros p q c Hg Hk; [injection Hg as <-; lia|].
  destruct (child p sp) as [x|] eqn:Hx; [|discriminate].
  assert (Hf : fits sp (put pi q x)) by (eapply fits_same_kind; eauto using put_kind).
  pose proof (marks_set_child _ _ _ Hx Hf). specialize (IH x q c Hg Hk). lia.
Qed.

Lemma marks_with_base p b : marks (with_base p b) = marks p.
Proof. destruct p; reflexivity. Qed.

Lemma sum_map_le A (f h : A -> nat) l : Forall (fun x => f x <= h x) l -> list_sum (map f l) <= list_sum (map h l).
Proof. induction 1; simpl; lia. Qed.
Lemma sum_map_eq A (f h : A -> nat) l : Forall (fun x => f x = h x) l -> list_sum (map f l) = list_sum (map h l).
Proof. induction 1; simpl; lia. Qed.

Lemma marks_reset p : marks (reset p) <= marks p.
Proof.
  induction p as [| | | b k v ms ig ign cb IH | b st v t tm cur ms ig cb IH |] using parser_ind'; simpl; auto; try lia.
  - rewrite map_map. cbn [snd]. pose proof (sum_map_le (fun mp => marks (reset (snd mp))) (fun mp => marks (snd mp)) IH). lia.
  - rewrite map_map. cbn [snd]. pose proof (sum_map_le (fun mp => marks (reset (snd mp))) (fun mp => marks (snd mp)) IH). lia.
Qed.

Lemma marks_set_disp d p : marks (set_disp d p) = marks p.
Proof.
  induction p as [| | | b k v ms ig ign cb IH | b st v t tm cur ms ig cb IH |] using parser_ind'; simpl; auto.
  - rewrite map_map. cbn [snd]. rewrite (sum_map_eq (fun mp => marks (set_disp d (snd mp))) (fun mp => marks (snd mp)) IH). auto.
  - rewrite map_map. cbn [snd]. rewrite (sum_map_eq (fun mp => marks (set_disp d (snd mp))) (fun mp => marks (snd mp)) IH). auto.
Qed.

Lemma marks_unset_at p rel : marks (unset_at p rel) = marks p.
Proof.
  unfold unset_at. destruct (get rel p) as [q|] eqn:Hq; auto. destruct (stored q); auto.
  pose proof (@marks_put rel p (set_set false q) q Hq (same_kind_with_base _ _)) as H.
  unfold set_set in *. rewrite marks_with_base in H. lia.
Qed.

Lemma marks_pops rels : forall p, marks (apply_pops rels p) = marks p.
Proof. induction rels as [|r rels IH]; intros p; simpl; auto. rewrite IH. apply marks_unset_at. Qed.

Lemma kind_pops rels : forall p, same_kind p (apply_pops rels p).
Proof.
  induction rels as [|r rels IH]; intros p; simpl; [apply same_kind_refl|]. eapply same_kind_trans; [|apply IH].
  unfold unset_at. destruct (get r p) as [q|] eqn:Hq; [|apply same_kind_refl]. destruct (stored q); [|apply same_kind_refl].
  eapply put_kind; eauto. apply same_kind_with_base.
Qed.

Lemma marks_away rels : forall m, marks (m_root (away rels m)) = marks (m_root m).
Proof. unfold away. induction rels as [|r rels IH]; intros m; simpl; auto. rewrite IH. apply marks_unset_at. Qed.

Lemma pop_value_marks e v e' : pop_value e = Some (v, e') -> marks e' = marks e.
Proof. unfold pop_value. destruct (get_value e); [|discriminate]. intros H. injection H as _ <-. apply marks_with_base. Qed.

Section Run.
Variable E : env.
Variable g : nat.

Lemma set_values_marks ms ms' x : set_values E ms = (ms', x) ->
  list_sum (map (fun mp => marks (snd mp)) ms') = list_sum (map (fun mp => marks (snd mp)) ms).
Proof.
  revert ms' x. induction ms as [|[m p] r IH]; intros ms' x H; simpl in H; [injection H as <- _; auto|].
  destruct (set_values E r) as [r' y]. specialize (IH r' y eq_refl).
  destruct y as [e|vs]; [injection H as <- _; simpl; lia|].
  destruct (is_set p).
  - destruct (pop_value p) as [[v p']|] eqn:Hp; [|injection H as <- _; simpl; lia].
    pose proof (pop_value_marks _ Hp). destruct (e_store E v); injection H as <- _; simpl; lia.
  - destruct (m_opt m); [|injection H as <- _; simpl; lia].
    destruct (m_def m); [|injection H as <- _; simpl; lia]. destruct (e_store E v); injection H as <- _; simpl; lia.
Qed.

Lemma uni_set_marks cur ms ms' x : uni_set_value E cur ms = (ms', x) ->
  list_sum (map (fun mp => marks (snd mp)) ms') = list_sum (map (fun mp => marks (snd mp)) ms).
Proof.
  unfold uni_set_value. destruct (nth_error ms cur) as [[m p]|] eqn:Hn; [|intros H; injection H as <- _; auto].
  destruct (is_set p).
  - destruct (pop_value p) as [[v p']|] eqn:Hp; [|intros H; injection H as <- _; auto].
    intros H. injection H as <- _. pose proof (@sum_set_mem cur p' ms p) as K. rewrite Hn in K. specialize (K eq_refl).
    rewrite (pop_value_marks _ Hp) in K. lia.
  - destruct (m_opt m); [|intros H; injection H as <- _; auto]. destruct (m_def m); intros H; injection H as <- _; auto.
Qed.

(** At most [n] more marks. *)
Definition okm (m : mstate) (n : nat) (r : res) : Prop :=
  match r with ROk m' | RThrow _ m' => marks (m_root m') <= marks (m_root m) + n | _ => True end.

Lemma okm_le m n m1 n1 r : okm m1 n1 r -> marks (m_root m1) + n1 <= marks (m_root m) + n -> okm m n r.
Proof. destruct r; simpl; auto; lia. Qed.
Lemma okm_at m n pi k : (forall p, get pi (m_root m) = Some p -> okm m n (k p)) -> okm m n (at_node m pi k).
Proof. unfold at_node. destruct (get pi (m_root m)); simpl; auto. Qed.
Lemma okm_at' m n m1 pi k : (forall p, get pi (m_root m1) = Some p -> okm m n (k p)) -> okm m n (at_node m1 pi k).
Proof. unfold at_node. destruct (get pi (m_root m1)); simpl; auto. Qed.
Lemma okm_deref m n d r : okm m n r -> okm m n (deref g d r).
Proof. unfold deref. destruct d; simpl; auto. destruct (Nat.eqb n0 g); simpl; auto. Qed.
Lemma okm_bind m n r k : okm m n r -> (forall m1, okm m n (ROk m1) -> okm m n (k m1)) -> okm m n (bind r k).
Proof. destruct r; simpl; auto. Qed.

Lemma marks_upd m pi p q : get pi (m_root m) = Some p -> same_kind p q -> marks q <= marks p ->
  marks (m_root (upd m pi q)) <= marks (m_root m).
Proof. intros Hg Hk Hle. pose proof (@marks_put pi (m_root m) q p Hg Hk). simpl. lia. Qed.

Lemma okm_run_cb m n m1 c a eff msg : marks (m_root m1) <= marks (m_root m) + n ->
  (forall o m', m_root m' = m_root m1 -> marks (m_root (eff o m')) <= marks (m_root m1)) ->
  okm m n (run_cb E c a eff msg m1).
Proof.
  intros H He. unfold run_cb. destruct c as [c|]; [|exact H].
  set (o := e_cb E c (m_log m1) (m_root m1) a).
  assert (K : marks (m_root (away (co_away o) (eff o (add_log m1 (Ev c (obs_of a)))))) <= marks (m_root m) + n).
  { rewrite marks_away. specialize (He o (add_log m1 (Ev c (obs_of a))) eq_refl). lia. }
  destruct (co_res o); exact K.
Qed.

Lemma pops_eff_marks pi o m : marks (m_root (pops_eff pi o m)) <= marks (m_root m).
Proof.
  unfold pops_eff. destruct (get pi (m_root m)) eqn:Hg; auto. eapply marks_upd; eauto using kind_pops.
  rewrite marks_pops. lia.
Qed.

Lemma cust_eff_marks pi o m : marks (m_root (cust_eff pi o m)) <= marks (m_root m).
Proof.
  unfold cust_eff. destruct (get pi (m_root m)) as [[]|] eqn:Hg; auto. eapply marks_upd; [exact Hg| |].
  - eapply same_kind_trans; [|apply kind_pops]. simpl; auto.
  - rewrite marks_pops. simpl. lia.
Qed.

Lemma okm_finish m n m0 pi p : get pi (m_root m) = Some p -> marks (m_root m) <= marks (m_root m0) + n ->
  okm m0 n (Model.finish E pi (upd m pi (set_set true p))).
Proof.
  intros Hg Hm. unfold Model.finish.
  set (m1 := upd m pi (set_set true p)).
  assert (H1 : get pi (m_root m1) = Some (set_set true p)).
  { simpl. eapply get_put_same; eauto. apply same_kind_with_base. }
  assert (Hm1 : marks (m_root m1) <= marks (m_root m0) + n).
  { pose proof (@marks_upd m pi p (set_set true p) Hg (same_kind_with_base _ _)) as K. unfold set_set in K at 1.
    rewrite marks_with_base in K. fold m1 in K. lia. }
  assert (Hup : forall q, same_kind p q -> marks q <= marks p -> marks (m_root (upd m1 pi q)) <= marks (m_root m0) + n).
  { intros q K1 K2. pose proof (@marks_upd m1 pi _ q H1) as K. unfold set_set in K. rewrite marks_with_base in K.
    assert (K3 : same_kind (with_base p (mkB (b_disp (base_of p)) true (b_empty (base_of p)))) q).
    { eapply same_kind_trans; [|exact K1]. apply same_kind_sym, same_kind_with_base. }
    specialize (K K3 K2). lia. }
  assert (Hno : forall M (o : cbout) m', m_root m' = m_root M -> marks (m_root (no_eff o m')) <= marks (m_root M)).
  { intros M o m' K. unfold no_eff. rewrite K. lia. }
  assert (Hpops : forall M (o : cbout) m', m_root m' = m_root M -> marks (m_root (pops_eff pi o m')) <= marks (m_root M)).
  { intros M o m' K. rewrite <- K. apply pops_eff_marks. }
  assert (Hcust : forall M (o : cbout) m', m_root m' = m_root M -> marks (m_root (cust_eff pi o m')) <= marks (m_root M)).
  { intros M o m' K. rewrite <- K. apply cust_eff_marks. }
  apply okm_at'. intros p' Hp'. assert (p' = set_set true p) by congruence. subst p'. clear Hp'.
  destruct p as [[bd bs be] ty v cb|[bd bs be] sd st vals e cb|[bd bs be] st key vals e ecb cb|[bd bs be] k v ms ig ign cb|[bd bs be] st v t tm cur ms ig cb|i];
    cbn [set_set with_base base_of b_set b_empty b_disp] in *.
  - apply okm_run_cb; auto.
  - destruct st; apply okm_run_cb; auto.
  - apply okm_run_cb; auto.
  - destruct be; [apply Hup; simpl; auto|]. destruct k.
    + destruct (check_members E ms); [apply Hup; simpl; auto|apply okm_run_cb; auto].
    + destruct (set_values E ms) as [ms' [e|vs]] eqn:Hx; pose proof (set_values_marks _ Hx) as Hs.
      * apply Hup; simpl; auto; lia.
      * apply okm_run_cb; [apply Hup; simpl; auto; lia|apply Hno].
    + destruct (check_members E ms); [apply Hup; simpl; auto|apply okm_run_cb; auto].
  - destruct be; [apply Hup; simpl; auto|]. destruct st.
    + destruct (uni_set_value E cur ms) as [ms' [e|o]] eqn:Hx; pose proof (uni_set_marks _ _ Hx) as Hs.
      * apply Hup; simpl; auto; lia.
      * apply okm_run_cb; [apply Hup; simpl; auto; lia|apply Hno].
    + destruct (uni_check cur ms); [apply Hup; simpl; auto|apply okm_run_cb; auto].
  - exact Hm1.
Qed.

(** Can a token of this kind leads an Ignore parser through arrays? *)
Definition opening (t : token) : bool := match t with TMapStart | TArrStart => true | _ => false end.
Fixpoint leads (p : parser) : bool :=
  match p with PIgn _ => true | PArr _ _ _ _ e _ => leads e | _ => false end.
Definition cost_at (pi : path) (t : token) (m : mstate) : nat :=
  match get pi (m_root m) with Some p => if opening t && leads p then 1 else 0 | None => 0 end.
Definition cost (c : call) (m : mstate) : nat :=
  match c with
  | COn pi t => cost_at pi t m
  | CDisp t => match m_stack m with q :: _ => cost_at q t m | [] => 0 end
  | _ => 0
  end.

Section Step.
Variable rec : call -> mstate -> res.
Hypothesis IH : forall c m, okm m (cost c m) (rec c m).

Lemma IH0 c m m1 n : cost c m1 = 0 -> marks (m_root m1) <= marks (m_root m) + n -> okm m n (rec c m1).
Proof. intros Hc Hm. eapply okm_le; [apply IH|]. lia. Qed.

Lemma okm_pop_if m n m1 d : marks (m_root m1) <= marks (m_root m) + n -> okm m n (pop_if_disp g rec d m1).
Proof. intros H. unfold pop_if_disp. destruct d; [|exact H]. apply okm_deref. apply IH0; auto. Qed.

Lemma okm_member A m n m1 pi p (ms : list (mspec * A)) ign nm : get pi (m_root m1) = Some p ->
  marks (m_root m1) <= marks (m_root m) + n -> okm m n (on_member E g pi p ms ign nm m1).
Proof.
  intros Hg Hm. unfold on_member.
  assert (K : marks (m_root (upd m1 pi (set_not_empty p))) <= marks (m_root m) + n).
  { pose proof (@marks_upd m1 pi p (set_not_empty p) Hg (same_kind_with_base _ _)) as K. unfold set_not_empty in K at 1.
    rewrite marks_with_base in K. lia. }
  destruct (lookup nm ms); [apply okm_deref; exact K|]. destruct ign; [apply okm_deref; exact K|exact K].
Qed.

Lemma kind_reset p : same_kind p (reset p).
Proof. destruct p; simpl; auto. Qed.

Lemma okm_body c m : okm m (cost c m) (call_body E g rec c m).
Proof.
  destruct c as [|t|pi t|pi|pi]; cbn [call_body].
  - unfold body_pop. destruct (m_stack m) as [|q [|q' r]]; simpl; try lia. apply IH0; simpl; auto. lia.
  - unfold body_disp, cost. destruct (m_stack m) as [|q r] eqn:Hst; [simpl; lia|]. eapply okm_le; [apply IH|]. simpl. lia.
  - unfold body_on. apply okm_at. intros p Hg. cbn [cost]. unfold cost_at. rewrite Hg.
    set (n := if opening t && leads p then 1 else 0).
    assert (Hup : forall q, same_kind p q -> marks q <= marks p -> marks (m_root (upd m pi q)) <= marks (m_root m) + n).
    { intros q K1 K2. pose proof (@marks_upd m pi p q Hg K1 K2). lia. }
    assert (Hok : forall q, same_kind p q -> marks q <= marks p -> okm m n (ROk (upd m pi q))) by (intros q K1 K2; exact (Hup q K1 K2)).
    assert (Hrs : okm m n (ROk (upd m pi (reset p)))) by (apply Hok; [apply kind_reset|apply marks_reset]).
    assert (Hnull : okm m n (on_null g rec pi p m)) by (apply okm_pop_if; apply Hup; [apply kind_reset|apply marks_reset]).
    assert (Hthrow : okm m n (RThrow XOther m)) by (simpl; lia).
    assert (Hsame : okm m n (ROk m)) by (simpl; lia).
    assert (Hend : forall q, same_kind p q -> marks q <= marks p -> okm m n (rec (CEnd pi) (upd m pi q))) by (intros; apply IH0; auto).
    destruct p as [b ty v cb|b sd st vals e cb|b st key vals e ecb cb|b k v ms ig ign cb|b st v ty tm cur ms ig cb|i].
    + unfold on_val. destruct t; try exact Hthrow; auto. destruct (takes_scalar ty x); [|exact Hthrow].
      apply Hend; simpl; auto.
    + assert (Hch : get (pi ++ [Elem])%list (m_root m) = Some e).
      { rewrite get_app, Hg. reflexivity. }
      assert (Henter : opening t = true -> okm m n (arr_enter g rec pi (PArr b sd st vals e cb) t m)).
      { intros Ho. unfold arr_enter. apply okm_deref. set (q := set_not_empty _).
        assert (K : marks (m_root (upd m pi q)) <= marks (m_root m)).
        { apply (@marks_upd m pi _ q Hg); simpl; auto. rewrite marks_set_disp. lia. }
        eapply okm_le; [apply IH|]. cbn [cost push set_stack m_root]. unfold cost_at. cbn [push set_stack m_root].
        assert (K2 : get (pi ++ [Elem])%list (m_root (upd m pi q)) = Some (set_disp (b_disp b) e)).
        { rewrite get_app. cbn [upd m_root]. rewrite (@get_put_same pi _ _ q Hg) by (simpl; auto). reflexivity. }
        rewrite K2. unfold n. cbn [leads]. rewrite Ho. cbn [andb].
        assert (K3 : leads (set_disp (b_disp b) e) = leads e) by (destruct e; reflexivity).
        rewrite K3. lia. }
      unfold on_arr. destruct t; try exact Hthrow.
      * destruct sd; [|auto]. apply IH0; [|lia]. simpl. unfold cost_at. rewrite Hch. reflexivity.
      * destruct sd; [|exact Hthrow]. apply okm_bind.
        { apply IH0; [|lia]. simpl. unfold cost_at. rewrite Hch. reflexivity. }
        intros m1 K1. apply okm_at'. intros p1 Hp1. apply IH0; auto.
        pose proof (@marks_upd m1 pi p1 (set_not_empty p1) Hp1 (same_kind_with_base _ _)) as K. unfold set_not_empty in K at 1.
        rewrite marks_with_base in K. simpl in K1. lia.
      * destruct sd; [auto|exact Hthrow].
      * destruct sd; [auto|]. cbn [reset]. apply Hok; simpl; auto. apply marks_reset.
      * apply Hend; simpl; auto.
    + unfold on_map. destruct t; try exact Hthrow; auto.
      * apply okm_deref. exact (Hup (set_not_empty (PMap b st k vals e ecb cb)) I (le_n _)).
      * apply IH0; [reflexivity|lia].
    + unfold on_obj. destruct t; try exact Hthrow; auto.
      * apply okm_member; [exact Hg|lia].
      * apply IH0; [reflexivity|lia].
    + unfold on_uni. destruct t; try exact Hthrow; auto.
      * destruct (takes_scalar ty x); [|exact Hthrow].
        set (p1 := reset (PUni b st v ty tm cur ms ig cb)) in *.
        assert (K2 : get pi (m_root (upd m pi p1)) = Some p1).
        { simpl. eapply get_put_same; eauto. simpl; auto. }
        apply okm_bind; [apply okm_member; auto|]. intros m1 K3. apply okm_at'. intros p2 Hp2.
        destruct p2; try exact K3. destruct (lookup x ms); [|exact K3].
        simpl in K3 |- *.
        match goal with |- marks (put pi ?q _) <= _ => pose proof (@marks_put pi (m_root m1) q _ Hp2 I) as K4 end.
        simpl in K4. lia.
      * destruct (String.eqb tm ""); [exact Hthrow|auto].
      * destruct (String.eqb tm ""); [exact Hthrow|]. destruct (String.eqb k tm); [exact Hsame|exact Hthrow].
      * apply IH0; [reflexivity|lia].
    + unfold on_ign.
      assert (Hig : forall st, List.length st <= List.length (ig_st i) + n -> marks (m_root (upd m pi (PIgn (mkI (ig_b i) st)))) <= marks (m_root m) + n).
      { intros st K. pose proof (@marks_put pi (m_root m) (PIgn (mkI (ig_b i) st)) _ Hg I) as K4. simpl in K4 |- *. lia. }
      destruct t; auto.
      * destruct (ig_st i); [|exact Hsame]. apply IH0; [reflexivity|lia].
      * simpl. apply Hig. unfold n. simpl. lia.
      * destruct (ig_st i) as [|[] r]; exact Hsame.
      * destruct (ig_st i) as [|[] [|]] eqn:Hi; try exact Hsame; [apply IH0; [reflexivity|]|]; apply Hig; simpl; lia.
      * simpl. apply Hig. unfold n. simpl. lia.
      * destruct (ig_st i) as [|[] [|]] eqn:Hi; try exact Hsame; [apply IH0; [reflexivity|]|]; apply Hig; simpl; lia.
  - unfold body_end. apply okm_at. intros p Hg. apply okm_bind; [apply okm_finish; auto; lia|].
    intros m2 K2. apply okm_at'. intros p2 _. apply okm_pop_if. exact K2.
  - unfold body_child. apply okm_at. intros p Hg. cbn [cost].
    assert (Hsame : okm m 0 (ROk m)) by (simpl; lia).
    destruct p as [b ty v cb|b sd st vals e cb|b st key vals e ecb cb|b k v ms ig ign cb|b st v ty tm cur ms ig cb|i]; try exact Hsame.
    + destruct st; [|exact Hsame]. destruct (pop_value e) as [[v e']|] eqn:Hp; [|simpl; lia].
      pose proof (pop_value_marks _ Hp).
      destruct (e_store E v); cbn [okm]; match goal with |- marks (m_root (upd m pi ?q)) <= _ => pose proof (@marks_upd m pi _ q Hg I) as K end;
        simpl in K |- *; lia.
    + apply okm_bind; [apply okm_run_cb; [lia|intros o m' K; rewrite <- K; apply pops_eff_marks]|].
      intros m1 K1. destruct st; [|exact K1]. apply okm_at'. intros p1 Hp1. destruct p1; try exact K1.
      destruct (pop_value p1) as [[v e']|] eqn:Hp; [|exact K1]. pose proof (pop_value_marks _ Hp). simpl in K1.
      destruct (e_store E v); cbn [okm]; match goal with |- marks (m_root (upd m1 pi ?q)) <= _ => pose proof (@marks_upd m1 pi _ q Hp1 I) as K end;
        simpl in K |- *; lia.
    + apply okm_bind; [apply IH0; auto; lia|]. intros m1 K1. destruct (String.eqb tm ""); [|exact K1].
      apply okm_at'. intros p1 _. apply okm_deref. apply IH0; [|exact K1].
      cbn [cost]. unfold cost_at. destruct (m_stack m1) as [|q r]; auto. destruct (get q (m_root m1)); reflexivity.
Qed.
End Step.

Lemma okm_fault c m x m' : In m' (faults g c m) -> okm m 0 (RThrow x m').
Proof.
  intros Hin.
  assert (Hup : forall pi p q, get pi (m_root m) = Some p -> same_kind p q -> marks q <= marks p -> marks (m_root (upd m pi q)) <= marks (m_root m) + 0).
  { intros pi p q Hg K1 K2. pose proof (@marks_upd m pi p q Hg K1 K2). lia. }
  assert (Hne : forall p, marks (set_not_empty p) = marks p) by (intros p; apply marks_with_base).
  cbn [okm]. apply (@faults_cases g (fun m' => marks (m_root m') <= marks (m_root m) + 0) c m m' Hin); intros;
    try match goal with |- context [push ?m1 _] => change (m_root (push m1 _)) with (m_root m1) end;
    [lia|(eapply Hup; [eassumption|try apply same_kind_with_base|rewrite Hne])..]; auto.
  - simpl. auto.
  - cbn [marks]. rewrite marks_set_disp. auto.
  - simpl. auto.
  - apply marks_reset.
  - simpl. auto.
  - apply marks_reset.
Qed.
End Run.

Lemma okm_exec E g f : forall c m, okm m (cost c m) (exec E g f c m).
Proof.
  induction f as [|f IH]; intros c m; [exact I|]. cbn [exec]. apply body_cases.
  - intros E' _ _ _. apply okm_body; auto.
  - intros x m' Hin. eapply okm_le; [eapply okm_fault; eauto|]. lia.
Qed.

(** ** One token, one text *)

(** How deep in maps and arrays the text is after a token. *)
Definition deeper (t : token) (d : nat) : nat :=
  match t with TMapStart | TArrStart => S d | TMapEnd | TArrEnd => pred d | _ => d end.
(** The deepest nesting of a sequence of tokens. *)
Fixpoint nesting (d : nat) (ts : list token) : nat :=
  match ts with [] => d | t :: r => Nat.max d (nesting (deeper t d) r) end.

Lemma nesting_ge ts : forall d, d <= nesting d ts.
Proof. destruct ts; simpl; lia. Qed.

(** Ignore parsers are never elements of arrays: users cannot name the class. *)
Definition ign_direct (p : parser) : Prop :=
  forall pi q, get pi p = Some q -> leads q = true -> exists i, q = PIgn i.

Definition skipping (m : mstate) : option (path * igst) :=
  match m_stack m with
  | q :: _ => match get q (m_root m) with Some (PIgn i) => Some (q, i) | _ => None end
  | [] => None
  end.

(** [Marked n d m]: at most [n] marks, and those of the value being skipped. *)
Definition Marked (n d : nat) (m : mstate) : Prop :=
  match skipping m with
  | Some (_, i) => exists r, r <= List.length (ig_st i) /\ r <= d /\ marks (m_root m) <= n + r
  | None => marks (m_root m) <= n
  end.

Lemma J_le n d m : marks (m_root m) <= n -> Marked n d m.
Proof. intros H. unfold Marked. destruct (skipping m) as [[q i]|]; auto. exists 0. lia. Qed.
Lemma J_marks n d m : Marked n d m -> marks (m_root m) <= n + d.
Proof. unfold Marked. destruct (skipping m) as [[q i]|]; [intros (r & H1 & H2 & H3)|]; lia. Qed.

Section Text.
Variable E : env.
Variable g : nat.

Definition okj (n d d' : nat) (r : res) : Prop :=
  match r with ROk m => Marked n d' m | RThrow _ m => marks (m_root m) <= n + d | _ => True end.

Lemma okj_low n d d' m r : marks (m_root m) <= n -> okm m 0 r -> okj n d d' r.
Proof. destruct r; simpl; auto; intros; [apply J_le; lia|lia]. Qed.

Lemma J_step n d t m : ign_direct (m_root m) -> Marked n d m -> okj n d (deeper t d) (dispatch E g t m).
Proof.
  intros Hp HJ. unfold dispatch. unfold Marked in HJ.
  destruct (skipping m) as [[q i]|] eqn:Hs.
  - unfold skipping in Hs. destruct (m_stack m) as [|q0 st] eqn:Hst; [discriminate|].
    destruct (get q0 (m_root m)) as [p|] eqn:Hg; [|discriminate]. destruct p; try discriminate.
    injection Hs as -> ->. destruct HJ as (r & H1 & H2 & H3).
    assert (Hf : exists f, fuel_for m = S (S f)) by (unfold fuel_for; exists (5 * List.length (m_stack m) + 6 * height (m_root m) + 5); lia).
    destruct Hf as [f Hf]. rewrite Hf. change (exec E g (S (S f))) with (Model.body E g (Model.body E g (exec E g f))).
    assert (Hfault : forall c x m', In m' (faults g c m) -> okj n d (deeper t d) (RThrow x m')).
    { intros c x m' Hin. pose proof (okm_fault g c m x m' Hin) as K. cbn [okm okj] in *. lia. }
    apply body_cases; [intros E1 _ _ _|intros x m'; apply Hfault]. cbn [call_body]. unfold body_disp. rewrite Hst.
    apply body_cases; [intros E2 _ _ _|intros x m'; apply Hfault]. cbn [call_body]. unfold body_on, at_node. rewrite Hg.
    set (rec := exec E g f). assert (IH : forall c m, okm m (cost c m) (rec c m)) by (intros; apply okm_exec).
    assert (Hput : forall s', marks (m_root (upd m q (PIgn (mkI (ig_b i) s')))) + List.length (ig_st i) = marks (m_root m) + List.length s').
    { intros s'. exact (@marks_put q (m_root m) (PIgn (mkI (ig_b i) s')) _ Hg I). }
    assert (Hsk : forall s', skipping (upd m q (PIgn (mkI (ig_b i) s'))) = Some (q, mkI (ig_b i) s')).
    { intros s'. unfold skipping. cbn [upd m_stack m_root]. rewrite Hst.
      rewrite (@get_put_same q _ _ (PIgn (mkI (ig_b i) s')) Hg I). reflexivity. }
    assert (Hsame : skipping m = Some (q, i)).
    { unfold skipping. rewrite Hst, Hg. reflexivity. }
    assert (Hkeep : Marked n d m) by (unfold Marked; rewrite Hsame; exists r; auto).
    assert (Hthr : forall x, okj n d (deeper t d) (RThrow x m)) by (intros x; simpl; lia).
    assert (Hdone : forall m1, marks (m_root m1) <= n -> okj n d (deeper t d) (rec (CEnd q) m1)).
    { intros m1 K. apply (@okj_low n d _ m1); auto. exact (IH (CEnd q) m1). }
    assert (Hnull : okj n d d (on_null g rec q (PIgn i) m)).
    { unfold on_null. cbn [reset]. unfold reset_ig.
      assert (K : marks (m_root (upd m q (PIgn (mkI (reset_base (ig_b i)) [])))) + List.length (ig_st i) = marks (m_root m) + 0).
      { exact (@marks_put q (m_root m) (PIgn (mkI (reset_base (ig_b i)) [])) _ Hg I). }
      eapply okj_low; [|apply (@okm_pop_if g rec IH); apply Nat.le_add_r]. lia. }
    unfold on_ign. destruct t; cbn [deeper] in *; auto.
    + destruct (ig_st i) eqn:Hi; [|exact Hkeep]. apply Hdone. simpl in H1. lia.
    + cbn [okj]. unfold Marked. rewrite Hsk. exists (S r). cbn [ig_st List.length]. specialize (Hput (StObj :: ig_st i)). cbn [List.length] in Hput. lia.
    + destruct (ig_st i) as [|[] ?]; try exact Hkeep; apply Hthr.
    + destruct (ig_st i) as [|[] r'] eqn:Hi; try (apply Hthr). specialize (Hput r'). cbn [List.length] in H1, Hput. destruct r' as [|x r'].
      * apply Hdone. simpl in *. lia.
      * cbn [okj]. unfold Marked. rewrite Hsk. exists (pred r). cbn [ig_st List.length] in *. lia.
    + cbn [okj]. unfold Marked. rewrite Hsk. exists (S r). cbn [ig_st List.length]. specialize (Hput (StArr :: ig_st i)). cbn [List.length] in Hput. lia.
    + destruct (ig_st i) as [|[] r'] eqn:Hi; try (apply Hthr). specialize (Hput r'). cbn [List.length] in H1, Hput. destruct r' as [|x r'].
      * apply Hdone. simpl in *. lia.
      * cbn [okj]. unfold Marked. rewrite Hsk. exists (pred r). cbn [ig_st List.length] in *. lia.
  - apply (@okj_low n d _ m); auto.
    assert (Hc : cost (CDisp t) m = 0).
    { unfold cost, cost_at. unfold skipping in Hs. destruct (m_stack m) as [|q st]; auto.
      destruct (get q (m_root m)) as [p|] eqn:Hg; auto. destruct (opening t); auto. cbn [andb].
      destruct (leads p) eqn:Hr; auto. destruct (Hp _ _ Hg Hr) as [i ->]. discriminate. }
    pose proof (okm_exec E g (fuel_for m) (CDisp t) m) as K. rewrite Hc in K. exact K.
Qed.
End Text.

(** ** Declarations without Ignore inside *)
Fixpoint ign_free (s : schema) : bool :=
  match s with
  | SVal _ _ => true
  | SArr _ e _ => ign_free e
  | SMp _ e _ _ => ign_free e
  | SObj _ ms _ _ | SUni _ _ _ ms _ => forallb (fun mp => ign_free (snd mp)) ms
  | SIgn => false
  end.

Lemma ign_free_part q s : part q s -> ign_free s = true -> ign_free q = true.
Proof.
  induction 1 as [| | |s ms mp Hm Hi _ IH]; auto. intros H. apply IH.
  destruct s; simpl in Hm; try discriminate; injection Hm as <-; simpl in H;
    rewrite forallb_forall in H; apply H; auto.
Qed.

Lemma fit_leads s p : fit s p -> leads p = true -> ign_free s = false.
Proof. induction 1 using fit_ind'; simpl; intros; try discriminate; auto. Qed.

Lemma fit_ign_direct s p : fit s p -> ign_free s = true -> ign_direct p.
Proof.
  intros H Hd pi q Hg Hr. destruct (fit_get _ H Hg) as (s' & K1 & [->|K2]).
  - inversion K1; subst. eauto.
  - pose proof (ign_free_part K2 Hd). rewrite (fit_leads K1 Hr) in H0. discriminate.
Qed.

Section Texts.
Variable E : env.
Variable g : nat.
Lemma J_run s l ts : forall n d m, ign_free s = true -> sound s l m -> Marked n d m ->
  match run E g ts m with
  | ROk m' => Marked n (fold_left (fun d t => deeper t d) ts d) m'
  | RThrow _ m' => marks (m_root m') <= n + nesting d ts
  | _ => True
  end.
Proof.
  induction ts as [|t ts IH]; intros n d m Hd Hs HJ; cbn [run fold_left nesting]; auto.
  pose proof (@J_step E g n d t m (fit_ign_direct (proj1 Hs) Hd) HJ) as K.
  pose proof (@okt_exec E g s l (fuel_for m) (CDisp t) m Hs) as Ks. unfold dispatch in K |- *.
  destruct (exec E g (fuel_for m) (CDisp t) m) as [m1|e m1|u|]; cbn [bind]; auto.
  - specialize (IH n (deeper t d) m1 Hd Ks K). destruct (run E g ts m1); auto. lia.
  - simpl in K. lia.
Qed.

Lemma fold_nesting ts : forall d, fold_left (fun d t => deeper t d) ts d <= nesting d ts.
Proof. induction ts as [|t ts IH]; intros d; cbn [fold_left nesting]; auto. specialize (IH (deeper t d)). lia. Qed.

(** The text's tokens so far have been at most [nesting 0 ts] deep. *)
Lemma run_marks s l ts m m' : ign_free s = true -> sound s l m ->
  (run E g ts (dispatcher_reset m) = ROk m' \/ exists e, run E g ts (dispatcher_reset m) = RThrow e m') ->
  marks (m_root m') <= marks (m_root m) + nesting 0 ts.
Proof.
  intros Hd Hs Hr. assert (HJ : Marked (marks (m_root m)) 0 (dispatcher_reset m)) by (apply J_le; auto).
  pose proof (@J_run s l ts _ 0 _ Hd (sound_stack [[]] Hs) HJ) as K.
  change (set_stack m [[]]) with (dispatcher_reset m) in K.
  destruct Hr as [Hr|[e Hr]]; rewrite Hr in K; auto. apply J_marks in K. pose proof (fold_nesting ts 0). lia.
Qed.

(** At the end of a document nothing more is kept than before it. *)
Lemma run_marks_end s l ts m m' : ign_free s = true -> sound s l m ->
  run E g ts (dispatcher_reset m) = ROk m' -> m_stack m' = [] ->
  marks (m_root m') <= marks (m_root m).
Proof.
  intros Hd Hs Hr He. assert (HJ : Marked (marks (m_root m)) 0 (dispatcher_reset m)) by (apply J_le; auto).
  pose proof (@J_run s l ts _ 0 _ Hd (sound_stack [[]] Hs) HJ) as K.
  change (set_stack m [[]]) with (dispatcher_reset m) in K. rewrite Hr in K. unfold Marked, skipping in K. rewrite He in K. exact K.
Qed.
End Texts.

(** ** What a parser object holds *)

Fixpoint weight (v : value) : nat :=
  match v with
  | VSc _ | VCust _ => 1
  | VVec vs | VTup vs => list_sum (map weight vs)
  | VMap kvs => list_sum (map (fun kv => S (weight (snd kv))) kvs)
  | VVar _ v => weight v
  end.

(** The number of scalars, keys, user values and marks held in the fields of the parser
    objects: Value::_value (value.h:116), SArray::_values, Map::_key, SMap::_values,
    SAutoObject::_value, SCustomObject::_value, SUnion::_value, Ignore::_structure. *)
Fixpoint held (p : parser) : nat :=
  match p with
  | PVal _ _ v _ => weight v
  | PArr _ _ st vals e _ => (if st then list_sum (map weight vals) else 0) + held e
  | PMap _ st _ vals e _ _ => 1 + (if st then list_sum (map (fun kv => S (weight (snd kv))) vals) else 0) + held e
  | PObj _ k v ms ig _ _ => match k with OPlain => 0 | _ => weight v end + List.length (ig_st ig) + list_sum (map (fun mp => held (snd mp)) ms)
  | PUni _ st v _ _ _ ms ig _ => (if st then weight v else 0) + List.length (ig_st ig) + list_sum (map (fun mp => held (snd mp)) ms)
  | PIgn i => List.length (ig_st i)
  end.

(** A declaration of classes that do not collect: Value, Array, Map, Object,
    SCustomObject and Union. *)
Fixpoint streaming (s : schema) : bool :=
  match s with
  | SVal _ _ => true
  | SArr st e _ => negb st && streaming e
  | SMp st e _ _ => negb st && streaming e
  | SObj k ms _ _ => match k with OAuto => false | _ => true end && forallb (fun mp => streaming (snd mp)) ms
  | SUni st _ _ ms _ => negb st && forallb (fun mp => streaming (snd mp)) ms
  | SIgn => false
  end.

(** One place per Value, Map key and SCustomObject of the declaration. *)
Fixpoint slots (s : schema) : nat :=
  match s with
  | SVal _ _ => 1
  | SArr _ e _ => slots e
  | SMp _ e _ _ => S (slots e)
  | SObj k ms _ _ => match k with OCustom => 1 | _ => 0 end + list_sum (map (fun mp => slots (snd mp)) ms)
  | SUni _ _ _ ms _ => list_sum (map (fun mp => slots (snd mp)) ms)
  | SIgn => 0
  end.

Lemma streaming_ign_free s : streaming s = true -> ign_free s = true.
Proof.
  induction s as [|st e cb IH|st e ecb cb IH|k ms ign cb IH|st t tm ms cb IH|] using schema_ind'; simpl; auto; intros H;
    try (apply andb_prop in H; destruct H as [_ H]); auto;
    rewrite forallb_forall in *; intros mp Hi; rewrite Forall_forall in IH; auto.
Qed.

Lemma held_members ss ms :
  Forall2 (fun (sp : mspec * schema) (mp : mspec * parser) => fst sp = fst mp /\ (streaming (snd sp) = true -> held (snd mp) = slots (snd sp) + marks (snd mp))) ss ms ->
  forallb (fun mp => streaming (snd mp)) ss = true ->
  list_sum (map (fun mp => held (snd mp)) ms) = list_sum (map (fun mp => slots (snd mp)) ss) + list_sum (map (fun mp => marks (snd mp)) ms).
Proof.
  induction 1 as [|x y r r' [_ H1] Hr IH]; simpl; auto. intros H. apply andb_prop in H. destruct H as [K1 K2].
  specialize (H1 K1). specialize (IH K2). lia.
Qed.

Lemma held_slots s p : fit s p -> streaming s = true -> held p = slots s + marks p.
Proof.
  intros H. induction H as [b t v cb x Hv Ht|b sd st vals s e cb Hv He IH|b st key vals s e ecb cb Hv He IH
    |b k v ss ms ig ign cb Hv Hd Hm IH|b st v t tm cur ss ms ig cb Hv Hd Hm IH|i] using fit_ind'; simpl; intros Hs.
  - subst. reflexivity.
  - apply andb_prop in Hs. destruct Hs as [K1 K2]. destruct st; [discriminate|]. rewrite IH; auto.
  - apply andb_prop in Hs. destruct Hs as [K1 K2]. destruct st; [discriminate|]. rewrite IH; auto.
  - apply andb_prop in Hs. destruct Hs as [K1 K2]. pose proof (held_members IH K2) as K.
    destruct k; [simpl; lia|discriminate|]. inversion Hv; subst. simpl. lia.
  - apply andb_prop in Hs. destruct Hs as [K1 K2]. pose proof (held_members IH K2) as K. destruct st; [discriminate|]. lia.
  - discriminate.
Qed.

(** ** pop() and set...Callback() by the user *)
Definition igat (q : path) (p : parser) : option nat :=
  match get q p with Some (PIgn i) => Some (List.length (ig_st i)) | _ => None end.

Lemma J_igat n d m m' : m_stack m' = m_stack m -> marks (m_root m') = marks (m_root m) ->
  (forall q, igat q (m_root m') = igat q (m_root m)) -> Marked n d m -> Marked n d m'.
Proof.
  intros H1 H2 H3. unfold Marked, skipping. rewrite H1, H2. destruct (m_stack m) as [|q st]; auto. specialize (H3 q). unfold igat in H3.
  destruct (get q (m_root m)) as [[]|], (get q (m_root m')) as [[]|]; auto; try discriminate H3.
  injection H3 as ->. auto.
Qed.

Lemma igat_cons x q p : igat (x :: q) p = match child p x with Some c => igat q c | None => None end.
Proof. unfold igat. cbn [get]. destruct (child p x); auto. Qed.

Lemma igat_set_child p sp c c' : child p sp = Some c -> same_kind c c' -> (forall q, igat q c' = igat q c) ->
  forall q, igat q (set_child p sp c') = igat q p.
Proof.
  intros Hc Hk H q. destruct q as [|x q].
  - destruct p, sp; simpl in Hc; try discriminate; reflexivity.
  - rewrite !igat_cons.
    assert (Hm : forall ms n, option_map snd (nth_error ms n) = Some c -> forall k,
      match option_map snd (nth_error (set_mem n c' ms) k) with Some x => igat q x | None => None end =
      match option_map snd (nth_error ms k) with Some x => igat q x | None => None end).
    { intros ms n Hn k. unfold set_mem. destruct (nth_error ms n) as [mp|] eqn:Hn'; [|discriminate]. injection Hn as <-.
      destruct (Nat.eq_dec k n) as [->|Hne].
      - rewrite Hn'. assert (K : nth_error (set_nth n (fst mp, c') ms) n = Some (fst mp, c')).
        { clear -Hn'. revert n Hn'. induction ms as [|z ms IH]; intros [|n] Hn'; simpl in *; try discriminate; auto. }
        rewrite K. simpl. apply H.
      - assert (K : nth_error (set_nth n (fst mp, c') ms) k = nth_error ms k).
        { clear -Hne. revert k n Hne. induction ms as [|z ms IH]; intros [|k] [|n] Hne; simpl; auto; try congruence. }
        rewrite K. reflexivity. }
    destruct p, sp; simpl in Hc; try discriminate; destruct x; simpl; try reflexivity;
      try (injection Hc as <-; apply H); try (apply Hm; exact Hc);
      injection Hc as <-; destruct c'; simpl in Hk; try contradiction; apply H.
Qed.

Lemma igat_put pi : forall p c c', get pi p = Some c -> same_kind c c' -> (forall q, igat q c' = igat q c) ->
  forall q, igat q (put pi c' p) = igat q p.
Proof.
  induction pi as [|sp pi IH]; cbn [get put]; intros p c c' Hg Hk H; [injection Hg as ->; auto|].
  destruct (child p sp) as [x|] eqn:Hx; [|discriminate].
  eapply igat_set_child; [exact Hx|eapply put_kind; eauto|]. intros q. eapply IH; eauto.
Qed.

Lemma igat_with_base p b q : igat q (with_base p b) = igat q p.
Proof. destruct q as [|x q]; [destruct p; reflexivity|]. rewrite !igat_cons. destruct p, x; reflexivity. Qed.

Lemma igat_unset_at p rel q : igat q (unset_at p rel) = igat q p.
Proof.
  unfold unset_at. destruct (get rel p) as [c|] eqn:Hc; auto. destruct (stored c); auto.
  apply (@igat_put _ _ _ _ Hc (same_kind_with_base _ _)). intros q'. apply igat_with_base.
Qed.

Lemma marks_uncb p : marks (uncb p) = marks p.
Proof.
  induction p as [| | | b k v ms ig ign cb IH | b st v t tm cur ms ig cb IH |] using parser_ind'; simpl; auto;
    rewrite map_map; cbn [snd]; rewrite (sum_map_eq (fun mp => marks (uncb (snd mp))) (fun mp => marks (snd mp)) IH); auto.
Qed.

Lemma igat_uncb q p : igat q (uncb p) = igat q p.
Proof. unfold igat. rewrite get_uncb. destruct (get q p) as [[]|]; reflexivity. Qed.

Lemma J_pop n d m rel : Marked n d m -> Marked n d (mkS (unset_at (m_root m) rel) (m_stack m) (m_log m)).
Proof. apply J_igat; simpl; auto using marks_unset_at, igat_unset_at. Qed.

Lemma J_callback n d m w pi c : Marked n d m -> Marked n d (mkS (set_callback_at w pi c (m_root m)) (m_stack m) (m_log m)).
Proof.
  apply J_igat; simpl; auto.
  - rewrite <- (marks_uncb (set_callback_at _ _ _ _)), uncb_set_at. apply marks_uncb.
  - intros q. rewrite <- (igat_uncb q (set_callback_at _ _ _ _)), uncb_set_at. apply igat_uncb.
Qed.

(** ** Changing callbacks changes none of the numbers *)
Lemma streaming_uncb s : streaming (uncb_s s) = streaming s.
Proof.
  induction s as [|st e cb IH|st e ecb cb IH|k ms ign cb IH|st t tm ms cb IH|] using schema_ind'; simpl; auto; try (rewrite IH; auto).
  - f_equal. induction IH; simpl; auto. congruence.
  - f_equal. induction IH; simpl; auto. congruence.
Qed.
Lemma slots_uncb s : slots (uncb_s s) = slots s.
Proof.
  induction s as [|st e cb IH|st e ecb cb IH|k ms ign cb IH|st t tm ms cb IH|] using schema_ind'; simpl; auto.
  - rewrite map_map. cbn [snd]. f_equal. induction IH; simpl; auto; lia.
  - rewrite map_map. cbn [snd]. induction IH; simpl; auto; lia.
Qed.

Lemma marks_mk s : marks (mk s) = 0.
Proof.
  induction s as [|st e cb IH|st e ecb cb IH|k ms ign cb IH|st t tm ms cb IH|] using schema_ind'; simpl; auto;
    rewrite map_map; cbn [snd]; induction IH; simpl; auto; lia.
Qed.
