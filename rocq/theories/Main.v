(** The main refinement theorem: feeding the tokens of a supported document to the
    machine has exactly the effect [den] gives. *)

From Verif Require Import Spec Model Infra Total Safe Refine.
Local Open Scope string_scope.
Set Implicit Arguments.

Section JsonInd.
  Variable Q : json -> Prop.
  Hypothesis HN : Q JNull.
  Hypothesis HS : forall x, Q (JSc x).
  Hypothesis HA : forall l, Forall Q l -> Q (JArr l).
  Hypothesis HO : forall ps, Forall (fun kv => Q (snd kv)) ps -> Q (JObj ps).

  Fixpoint json_ind' (j : json) : Q j :=
    match j with
    | JNull => HN
    | JSc x => HS x
    | JArr l =>
        HA ((fix go (l : list json) : Forall Q l :=
               match l with
               | [] => Forall_nil _
               | j :: r => Forall_cons (P := Q) j (json_ind' j) (go r)
               end) l)
    | JObj ps =>
        HO ((fix go (ps : list (string * json)) : Forall (fun kv => Q (snd kv)) ps :=
               match ps with
               | [] => Forall_nil _
               | kv :: r => Forall_cons (P := fun kv => Q (snd kv)) kv (json_ind' (snd kv)) (go r)
               end) ps)
    end.
End JsonInd.

Definition ptoks (ps : list (string * json)) : list token :=
  flat_map (fun kv => TKey (fst kv) :: toks (snd kv))%list ps.

Section Main.
Variable P : prog.
Variable g : nat.
Notation E := (lift P).
Notation call_ := (call_ E g).

Hint Constructors le_p le_ms : le.
Hint Resolve le_refl le_ms_refl le_b_refl le_i_refl : le.

(** ** Ignored values *)
Lemma ign_inner j : no_null j = true -> forall T pi sigma l i,
  get pi T = Some (PIgn i) -> ig_st i <> [] ->
  run E g (toks j) (mkS T (pi :: sigma) l) = ROk (mkS T (pi :: sigma) l).
Proof.
  induction j as [|x|js IH|ps IH] using json_ind'; intros Hn T pi sigma l i Hg Hst; simpl in Hn.
  - discriminate.
  - cbn [toks]. erewrite run_node by eauto. simpl. destruct (ig_st i); [congruence|reflexivity].
  - cbn [toks]. erewrite run_node by eauto. cbn [on_p on_ign].
    unfold upd; cbn [m_root m_stack m_log bind]. rewrite run_app.
    set (i1 := mkI (ig_b i) (StArr :: ig_st i)).
    assert (Hg1 : get pi (put pi (PIgn i1) T) = Some (PIgn i1)) by (eapply get_put_same; eauto; simpl; auto).
    assert (Hm : run E g (flat_map toks js) (mkS (put pi (PIgn i1) T) (pi :: sigma) l)
                 = ROk (mkS (put pi (PIgn i1) T) (pi :: sigma) l)).
    { clear - IH Hn Hg1. induction IH as [|j r Hj Hr IHr]; simpl in *; auto.
      apply andb_prop in Hn. destruct Hn as [Hn1 Hn2].
      rewrite run_app. rewrite (Hj Hn1 _ pi sigma l _ Hg1) by (simpl; discriminate). cbn [bind]. auto. }
    rewrite Hm. cbn [bind]. rewrite run_one. erewrite disp_node by eauto. simpl.
    destruct (ig_st i) as [|a r] eqn:Ha; [congruence|].
    unfold upd; simpl. erewrite put_put by (eauto; simpl; auto).
    rewrite <- Ha. replace (mkI (ig_b i) (ig_st i)) with i by (destruct i; auto).
    rewrite put_same; auto.
  - cbn [toks]. erewrite run_node by eauto. cbn [on_p on_ign].
    unfold upd; cbn [m_root m_stack m_log bind]. rewrite run_app.
    set (i1 := mkI (ig_b i) (StObj :: ig_st i)).
    assert (Hg1 : get pi (put pi (PIgn i1) T) = Some (PIgn i1)) by (eapply get_put_same; eauto; simpl; auto).
    assert (Hm : run E g (ptoks ps) (mkS (put pi (PIgn i1) T) (pi :: sigma) l)
                 = ROk (mkS (put pi (PIgn i1) T) (pi :: sigma) l)).
    { clear - IH Hn Hg1. induction IH as [|[k j] r Hj Hr IHr]; auto.
      simpl in Hn, Hj. apply andb_prop in Hn. destruct Hn as [Hn1 Hn2].
      cbn [ptoks flat_map fst snd app]. erewrite run_node by eauto. cbn [on_p on_ign i1 ig_st bind].
      fold i1. rewrite run_app. rewrite (Hj Hn1 _ pi sigma l _ Hg1) by (simpl; discriminate). cbn [bind]. auto. }
    unfold ptoks in Hm. rewrite Hm. cbn [bind]. rewrite run_one. erewrite disp_node by eauto. simpl.
    destruct (ig_st i) as [|a r] eqn:Ha; [congruence|].
    unfold upd; simpl. erewrite put_put by (eauto; simpl; auto).
    rewrite <- Ha. replace (mkI (ig_b i) (ig_st i)) with i by (destruct i; auto).
    rewrite put_same; auto.
Qed.

Lemma ign_end T pi sigma l i :
  get pi T = Some (PIgn i) -> b_disp (ig_b i) = Some g ->
  call_ (CEnd pi) (mkS T (pi :: sigma) l) =
  call_ CPop (mkS (put pi (set_set true (PIgn i)) T) (pi :: sigma) l).
Proof.
  intros Hg Hd. rewrite call_eq0 by reflexivity. cbn [call_body]. unfold body_end, at_node at 1. cbn [m_root].
  rewrite Hg. unfold upd; cbn [m_root m_stack m_log].
  assert (Hg1 : get pi (put pi (set_set true (PIgn i)) T) = Some (set_set true (PIgn i)))
    by (eapply get_put_same; eauto; simpl; auto).
  unfold finish, at_node; cbn [m_root]. rewrite Hg1. cbn [set_set with_base base_of bind m_root] in *.
  rewrite Hg1. cbn [disp_of base_of ig_b b_disp]. rewrite Hd. simpl. rewrite Nat.eqb_refl. reflexivity.
Qed.

Lemma ign_run j : ignorable j = true -> forall T pi sigma l i,
  get pi T = Some (PIgn i) -> b_disp (ig_b i) = Some g -> ig_st i = [] ->
  exists i', ig_st i' = [] /\ le_i g i i' /\
    (b_empty (ig_b i) = true ->
     b_empty (ig_b i') = true /\ view_of (PIgn i') = if is_null j then fresh SIgn else View true true None 0 []) /\
    run E g (toks j) (mkS T (pi :: sigma) l) = call_ CPop (mkS (put pi (PIgn i') T) (pi :: sigma) l).
Proof.
  intros Hj T pi sigma l i Hg Hd Hst.
  unfold ignorable in Hj. destruct j as [|x|js|ps]; cbn [is_null orb] in Hj; cbn [toks is_null].
  - exists (reset_ig i). repeat split; auto with le. { left; auto. }
    rewrite run_one. erewrite disp_node by eauto. cbn [on_p on_ign]. unfold on_null, disp_of.
    cbn [base_of]. rewrite Hd. simpl. rewrite Nat.eqb_refl. reflexivity.
  - exists (mkI (mkB (Some g) true (b_empty (ig_b i))) []). repeat split; auto. { right; auto. }
    { simpl. rewrite H; auto. }
    rewrite run_one. erewrite disp_node by eauto. simpl. rewrite Hst.
    erewrite ign_end by eauto. simpl. rewrite Hd, Hst. reflexivity.
  - exists (mkI (mkB (Some g) true (b_empty (ig_b i))) []). repeat split; auto. { right; auto. }
    { simpl. rewrite H; auto. }
    erewrite run_node by eauto. cbn [on_p on_ign]. unfold upd; cbn [m_root m_stack m_log bind].
    set (i1 := mkI (ig_b i) (StArr :: ig_st i)).
    assert (Hg1 : get pi (put pi (PIgn i1) T) = Some (PIgn i1)) by (eapply get_put_same; eauto; simpl; auto).
    rewrite run_app.
    assert (Hm : run E g (flat_map toks js) (mkS (put pi (PIgn i1) T) (pi :: sigma) l)
                 = ROk (mkS (put pi (PIgn i1) T) (pi :: sigma) l)).
    { simpl in Hj. clear - Hj Hg1. induction js as [|j r IHr]; simpl in *; auto.
      apply andb_prop in Hj. destruct Hj as [Hn1 Hn2].
      rewrite run_app. rewrite (ign_inner _ Hn1 _ pi sigma l Hg1) by (simpl; discriminate). cbn [bind]. auto. }
    rewrite Hm. cbn [bind]. rewrite run_one. erewrite disp_node by eauto.
    cbn [on_p on_ign i1 ig_st ig_b]. fold i1. rewrite Hst. unfold upd; cbn [m_root m_stack m_log].
    erewrite put_put by (eauto; simpl; auto).
    erewrite ign_end; [|eapply get_put_same; eauto; simpl; auto|simpl; auto].
    erewrite put_put by (eauto; simpl; auto). simpl. rewrite Hd. reflexivity.
  - exists (mkI (mkB (Some g) true (b_empty (ig_b i))) []). repeat split; auto. { right; auto. }
    { simpl. rewrite H; auto. }
    erewrite run_node by eauto. cbn [on_p on_ign]. unfold upd; cbn [m_root m_stack m_log bind].
    set (i1 := mkI (ig_b i) (StObj :: ig_st i)).
    assert (Hg1 : get pi (put pi (PIgn i1) T) = Some (PIgn i1)) by (eapply get_put_same; eauto; simpl; auto).
    rewrite run_app.
    assert (Hm : run E g (ptoks ps) (mkS (put pi (PIgn i1) T) (pi :: sigma) l)
                 = ROk (mkS (put pi (PIgn i1) T) (pi :: sigma) l)).
    { simpl in Hj. clear - Hj Hg1. induction ps as [|[k j] r IHr]; auto.
      simpl in Hj. apply andb_prop in Hj. destruct Hj as [Hn1 Hn2].
      cbn [ptoks flat_map fst snd app]. erewrite run_node by eauto. cbn [on_p on_ign i1 ig_st bind].
      fold i1. rewrite run_app. rewrite (ign_inner _ Hn1 _ pi sigma l Hg1) by (simpl; discriminate). cbn [bind]. auto. }
    unfold ptoks in Hm. rewrite Hm. cbn [bind]. rewrite run_one. erewrite disp_node by eauto.
    cbn [on_p on_ign i1 ig_st ig_b]. fold i1. rewrite Hst. unfold upd; cbn [m_root m_stack m_log].
    erewrite put_put by (eauto; simpl; auto).
    erewrite ign_end; [|eapply get_put_same; eauto; simpl; auto|simpl; auto].
    erewrite put_put by (eauto; simpl; auto). simpl. rewrite Hd. reflexivity.
Qed.

(** ** Attaching does not change readiness *)
Lemma rdy_set_disp p : forall r, rdy r p -> rdy r (set_disp (Some g) p).
Proof.
  induction p as [| ? ? ? ? ? ? IH | ? ? ? ? ? ? ? IH | ? ? ? ? ? ? ? IH | ? ? ? ? ? ? ? ? ? IH |]
    using parser_ind'; simpl; auto; fold (rdy_ms true); intros r H.
  - induction IH as [|mp q Hq _ IHq]; simpl in *; auto. destruct H; split; auto.
  - induction IH as [|mp q Hq _ IHq]; simpl in *; auto. destruct H; split; auto.
Qed.

Lemma view_set_disp p : view_of (set_disp (Some g) p) = view_of p.
Proof.
  induction p as [| ? ? ? ? ? ? IH | ? ? ? ? ? ? ? IH | ? ? ? ? ? ? ? IH | ? ? ? ? ? ? ? ? ? IH |]
    using parser_ind'; simpl; auto.
  - rewrite map_map; simpl. f_equal. induction IH as [|mp q Hq _ IHq]; simpl; f_equal; auto.
  - rewrite map_map; simpl. f_equal. induction IH as [|mp q Hq _ IHq]; simpl; f_equal; auto.
Qed.

(** ** Unfolding the specification *)
Lemma den_arr js st e cb l : den P (JArr js) (SArr st e cb) l = elems P (den P) st e cb js true [] l.
Proof. reflexivity. Qed.

Lemma den_obj ps s l :
  match s with SObj _ _ _ _ | SMp _ _ _ _ => True | _ => False end ->
  den P (JObj ps) s l = Spec.body P (den P) ps s true (fresh_kids s) [] l.
Proof. destruct s; simpl; intros; tauto || reflexivity. Qed.

Lemma den_uni ps st t tm ms cb l :
  den P (JObj ps) (SUni st t tm ms cb) l =
  if String.eqb tm "" then err l msg_emb_union
  else Spec.body P (den P) ps (SUni st t tm ms cb) true (fresh_kids (SUni st t tm ms cb)) [] l.
Proof. reflexivity. Qed.

(** ** Values *)
Definition V (j : json) : Prop := forall T pi sigma l p,
  supported j (schema_of p) = true -> get pi T = Some p -> att g p -> rdy false p ->
  val_rel P g (run E g (toks j) (mkS T (pi :: sigma) l)) (den P j (schema_of p) l) pi T (pi :: sigma) p.

Lemma throw_at e s l k : m_log s = l -> throws (bind (RThrow e s) k) e l.
Proof. intros H. exists s; auto. Qed.

(** The body of an object, for the parser that is on top of the stack. *)
Definition body_ok (p : parser) (empty : bool) (kids : list view) (vals : list (string * value)) : Prop :=
  match p with
  | PObj b k v ms ig _ _ =>
      b_empty b = empty /\ vms ms = kids /\ rdy_ms false ms /\ ig_st ig = [] /\
      (k = OCustom -> v = VCust None)
  | PMap b st _ vals' e _ _ => b_empty b = empty /\ (st = true -> vals' = vals) /\ rdy false e
  | PUni b _ _ _ _ _ ms _ _ => b_empty b = true /\ vms ms = kids /\ rdy_ms true ms
  | PIgn i => ig_st i = []
  | _ => True
  end.

Lemma rdy_ms_reset ms : rdy_ms true ms -> rdy_ms false (map (fun mp => (fst mp, reset (snd mp))) ms).
Proof. induction ms as [|mp q IH]; simpl; auto. intros [H1 H2]; auto using rdy_reset. Qed.

Lemma body_ok_reset p : rdy true p -> body_ok (reset p) true (fresh_kids (schema_of p)) [].
Proof.
  intros H. assert (Hv := view_reset p).
  destruct p; simpl in *; auto; fold (rdy_ms true) in *.
  - repeat split; auto. intros ->; auto.
  - repeat split; auto using rdy_ms_reset.
    + unfold fresh_kids. simpl. inversion Hv. rewrite !map_map in *. unfold vms. rewrite map_map. auto.
    + intros ->; reflexivity.
  - repeat split; auto using rdy_ms_reset, rdy_ms_weaken.
    unfold fresh_kids. simpl. inversion Hv. rewrite !map_map in *. unfold vms. rewrite map_map. auto.
Qed.

Definition B (ps : list (string * json)) : Prop := forall T pi sigma l p empty kids vals,
  sup_body supported ps (schema_of p) = true -> get pi T = Some p -> att g p ->
  body_ok p empty kids vals ->
  val_rel P g (run E g (ptoks ps ++ [TMapEnd]) (mkS T (pi :: sigma) l))
          (Spec.body P (den P) ps (schema_of p) empty kids vals l) pi T (pi :: sigma) p.

(** End of an object: the whole body has been seen. *)
Lemma mapend_rel T pi sigma l p empty kids vals :
  get pi T = Some p -> att g p -> body_ok p empty kids vals ->
  val_rel P g (call_ (CDisp TMapEnd) (mkS T (pi :: sigma) l))
          (Spec.body P (den P) [] (schema_of p) empty kids vals l) pi T (pi :: sigma) p.
Proof.
  intros Hg Ha Hb. erewrite disp_node by eauto.
  destruct p; cbn [on_p on_val on_arr on_map on_obj on_uni on_ign schema_of Spec.body].
  - eexists; split; [reflexivity|auto].
  - eexists; split; [reflexivity|auto].
  - destruct Hb as (H1 & H2 & H3). apply cend_rel; auto; [apply att_disp; auto|].
    cbn [set_set with_base base_of]. destruct b as [d s em]; simpl in H1; subst em. cbn [b_disp b_empty].
    replace (end_map P store cb empty vals l) with (end_map P store cb empty vals0 l).
    2:{ unfold end_map. destruct store; auto. rewrite H2; auto. }
    apply fin_map; auto.
    eapply get_put_same; eauto; simpl; auto.
  - destruct Hb as (H1 & H2 & H3 & H4 & H5). apply cend_rel; auto; [apply att_disp; auto|].
    cbn [set_set with_base base_of]. destruct b as [d s em]; simpl in H1; subst em. cbn [b_disp b_empty].
    subst kids. fold (sms ms). apply fin_object; auto using rdy_ms_weaken.
    eapply get_put_same; eauto; simpl; auto.
  - destruct Hb as (H1 & H2 & H3). apply cend_rel; auto; [apply att_disp; auto|].
    cbn [set_set with_base base_of]. destruct b as [d s em]; simpl in H1; subst em. cbn [b_disp b_empty].
    subst kids. apply fin_union_empty; auto.
    eapply get_put_same; eauto; simpl; auto.
  - simpl in Hb. rewrite Hb. eexists; split; [reflexivity|auto].
Qed.

(** The type value of a union and the rest of the object. *)
Definition after_uni (tm : string) (pi : path) (s : mstate) : res :=
  if String.eqb tm "" then at_node s pi (fun p1 => deref g (disp_of p1) (call_ (CDisp TMapEnd) s))
  else ROk s.

Lemma sms_nth ms i m c : nth_error ms i = Some (m, c) -> nth_error (sms ms) i = Some (m, schema_of c).
Proof. intros H. unfold sms. erewrite map_nth_error by eauto. reflexivity. Qed.

Lemma lookup_nth A nm (ms : list (mspec * A)) i : lookup nm ms = Some i -> exists mp, nth_error ms i = Some mp.
Proof.
  revert i; induction ms as [|[m a] r IH]; simpl; intros i H; [discriminate|].
  destruct (name_eqb (m_name m) nm); [inversion H; subst; simpl; eauto|].
  destruct (lookup nm r); inversion H; subst; simpl; eauto.
Qed.

Lemma reset_ms_nth ms i m c : nth_error ms i = Some (m, c) ->
  nth_error (map (fun mp : mspec * parser => (fst mp, reset (snd mp))) ms) i = Some (m, reset c).
Proof. intros H. erewrite map_nth_error by eauto. reflexivity. Qed.

Lemma att_reset p : att g p -> att g (reset p).
Proof. apply le_att, le_reset. Qed.

Lemma schema_reset p : schema_of (reset p) = schema_of p.
Proof. symmetry; apply (le_schema (g := g)), le_reset. Qed.

Lemma select_rel ps x T pi sigma l b sto v t tm cur ms ig cb :
  let p := PUni b sto v t tm cur ms ig cb in
  B ps -> sup_select (fun c => sup_body supported ps c) t (sms ms) x = true ->
  get pi T = Some p -> att g p -> rdy_ms true ms ->
  let r := run E g (TSc x :: ptoks ps ++ [TMapEnd]) (mkS T (pi :: sigma) l) in
  match select P (fun c l => Spec.body P (den P) ps c true (fresh_kids c) [] l) sto t (sms ms) cb x l with
  | (l', inl e) => throws r e l'
  | (l', inr w) => exists p', view_of p' = w /\ le_p g p p' /\ rdy false p' /\
      r = bind (call_ CPop (mkS (put pi p' T) (pi :: sigma) l')) (after_uni tm pi)
  end.
Proof.
  intros p HB Hsup Hg Ha Hr r.
  assert (Hrr : r = bind (on_p P g p pi (TSc x) (mkS T (pi :: sigma) l)) (run E g (ptoks ps ++ [TMapEnd])))
    by (unfold r; erewrite run_node by eauto; reflexivity).
  clearbody r. unfold p at 1 in Hrr.
  cbn [on_p on_uni] in Hrr. unfold select. unfold sup_select in Hsup.
  rewrite ?takes_scalar_eq in *; destruct (vtype_eqb (ty_of x) t) eqn:Ht; [|rewrite Hrr; apply throw_at; auto].
  rewrite index_of_lookup in *. unfold sms in *. rewrite (lookup_map schema_of) in *. fold (sms ms) in *.
  unfold on_member in Hrr.
  destruct (lookup x ms) as [i|] eqn:Hi; [|rewrite Hrr; apply throw_at; auto].
  destruct (lookup_nth _ _ Hi) as [[m c] Hn]. rewrite (sms_nth _ _ Hn) in *.
  set (p1 := reset p) in *.
  assert (Hd1 : disp_of p1 = Some g) by (apply att_disp, att_reset; auto).
  fold p in Hrr. fold p1 in Hrr. rewrite Hd1 in Hrr. cbn [deref] in Hrr. rewrite Nat.eqb_refl in Hrr.
  unfold upd, push, set_stack in Hrr. cbn [m_root m_stack m_log] in Hrr.
  assert (Hk1 : same_kind p p1) by (simpl; auto).
  assert (Hk2 : same_kind p (set_not_empty p1)) by (simpl; auto).
  assert (Hg2 : get pi (put pi p1 T) = Some p1) by (eapply get_put_same; eauto).
  assert (Hg3 : get pi (put pi (set_not_empty p1) (put pi p1 T)) = Some (set_not_empty p1))
    by (eapply get_put_same; eauto; simpl; auto).
  cbn [bind] in Hrr. unfold at_node at 1 in Hrr. cbn [m_root] in Hrr. rewrite Hg3 in Hrr.
  erewrite put_put in * by eauto.
  unfold p1 at 1, p at 1 in Hrr.
  cbn [reset set_not_empty with_base base_of bind m_root m_stack m_log] in Hrr.
  set (ms1 := map (fun mp : mspec * parser => (fst mp, reset (snd mp))) ms) in *.
  set (p2 := PUni (mkB (b_disp (reset_base b)) (b_set (reset_base b)) false) sto
       (if sto then dflt p else v) t tm i ms1 (reset_ig ig) cb).
  fold p1 in Hrr. change (PUni _ sto _ t tm i _ _ cb) with p2 in Hrr.
  erewrite put_put in Hrr by (eauto; simpl; auto).
  assert (Hg4 : get pi (put pi p2 T) = Some p2) by (eapply get_put_same; eauto; simpl; auto).
  assert (Hn1 : nth_error ms1 i = Some (m, reset c)) by (apply reset_ms_nth; auto).
  assert (Hc : child p2 (Mem i) = Some (reset c)) by (simpl; rewrite Hn1; auto).
  assert (Hgc : get (pi ++ [Mem i])%list (put pi p2 T) = Some (reset c))
    by (erewrite get_child_at; eauto).
  assert (Hac : att g c).
  { simpl in Ha. fold (att_ms g) in Ha. eapply att_nth with (mp := (m, c)); [|eauto]. apply Ha. }
  assert (Hrc : rdy true c) by (apply (rdy_ms_nth true _ _ Hr Hn)).
  assert (Hle2 : le_p g p p2).
  { eapply le_trans; [apply le_reset|]. constructor; auto with le. left; auto. }
  pose proof (HB (put pi p2 T) (pi ++ [Mem i])%list (pi :: sigma) l (reset c) true
                 (fresh_kids (schema_of c)) []) as HBc.
  rewrite schema_reset in HBc. specialize (HBc Hsup Hgc (att_reset _ Hac) (body_ok_reset _ Hrc)).
  destruct (Spec.body P (den P) ps (schema_of c) true (fresh_kids (schema_of c)) [] l) as [l1 [e|w]];
    cbn [andthen val_rel] in *; auto.
  { rewrite Hrr; auto. }
  destruct HBc as (c' & H1 & H2 & H3 & HBc). rewrite HBc in Hrr.
  rewrite cpop_cons in Hrr. erewrite put_child_at in Hrr by eauto.
  set (p3 := set_child p2 (Mem i) c') in *.
  erewrite put_put in Hrr by (eauto; simpl; auto).
  assert (Hle3 : le_p g p2 p3) by (eapply le_set_child; eauto).
  assert (Hg5 : get pi (put pi p3 T) = Some p3) by (eapply get_put_same; eauto; simpl; auto).
  rewrite call_eq0 in Hrr by reflexivity. cbn [call_body] in Hrr. unfold body_child, at_node at 1 in Hrr.
  cbn [m_root] in Hrr. rewrite Hg5 in Hrr.
  unfold p3 at 1, p2 at 1 in Hrr. cbn [set_child] in Hrr.
  change (r = bind (call_ (CEnd pi) (mkS (put pi p3 T) (pi :: sigma) l1)) (after_uni tm pi)) in Hrr.
  assert (Ha3 : att g p3) by (eapply le_att; [|exact Ha]; eapply le_trans; eauto).
  assert (Hn3 : nth_error (set_mem i c' ms1) i = Some (m, c')).
  { rewrite (set_mem_nth_eq _ _ _ Hn1). reflexivity. }
  pose proof (@cend_rel P g (put pi p3 T) sigma l1 pi p3
     (end_union P sto cb i m (view_of c') (map (fun mp => fresh (snd mp)) (sms ms)) l1)) as He.
  specialize (He Hg5 (att_disp _ _ Ha3)).
  assert (Hm1 : vms ms1 = map (fun mp => fresh (snd mp)) (sms ms)).
  { unfold vms, ms1, sms. rewrite !map_map. cbn [snd fst]. apply map_ext. intros. apply view_reset. }
  assert (Hrm : rdy_ms true (set_mem i c' ms1)).
  { apply rdy_ms_set_mem; auto using rdy_weaken. apply rdy_ms_weaken, rdy_ms_reset; auto. }
  assert (Hf : fin_rel g (finish E pi (mkS (put pi (set_set true p3) (put pi p3 T)) (pi :: sigma) l1))
     (end_union P sto cb i m (view_of c') (map (fun mp => fresh (snd mp)) (sms ms)) l1)
     pi (put pi (set_set true p3) (put pi p3 T)) (pi :: sigma) (set_set true p3)).
  { unfold p3, p2. cbn [set_child set_set with_base base_of b_disp b_empty reset_base].
    apply fin_union; auto.
    - eapply get_put_same; [exact Hg5|]. simpl; auto.
    - unfold vms. rewrite map_view_set_mem. fold (vms ms1). rewrite Hm1. reflexivity. }
  specialize (He Hf). subst w.
  apply val_rel_put with (p := p) in He; auto; [|eapply le_trans; eauto].
  destruct (end_union P sto cb i m (view_of c') (map (fun mp => fresh (snd mp)) (sms ms)) l1)
    as [l2 [e|w]]; cbn [val_rel] in He.
  - rewrite Hrr. apply throws_bind; auto.
  - destruct He as (p' & H1 & H4 & H5 & He). exists p'. rewrite Hrr, He. auto.
Qed.

Lemma child_done_obj T pi sigma l b k v ms ig ign cb st c' :
  let p := PObj b k v ms ig ign cb in
  get pi T = Some p -> (exists c, child p st = Some c /\ le_p g c c') ->
  call_ CPop (mkS (put (pi ++ [st])%list c' T) ((pi ++ [st])%list :: pi :: sigma) l) =
  ROk (mkS (put pi (set_child p st c') T) (pi :: sigma) l).
Proof.
  intros p Hg (c & Hc & Hle). rewrite cpop_cons. erewrite put_child_at by eauto.
  rewrite call_eq0 by reflexivity. cbn [call_body]. unfold body_child, at_node. cbn [m_root].
  erewrite get_put_same; [|eauto|apply set_child_kind].
  destruct st; reflexivity.
Qed.

Lemma child_done_map T pi sigma l b st key vals0 e ecb cb vals :
  let p := PMap b st key vals0 e ecb cb in
  get pi T = Some p -> (st = true -> vals0 = vals) -> rdy false e ->
  let r := call_ (CChild pi) (mkS T (pi :: sigma) l) in
  match end_map_elem P st ecb key (view_of e) vals l with
  | (l', inl x) => throws r x l'
  | (l', inr vals') => exists e' vals0',
      le_p g e e' /\ rdy false e' /\ (st = true -> vals0' = vals') /\
      r = ROk (mkS (put pi (PMap b st key vals0' e' ecb cb) T) (pi :: sigma) l')
  end.
Proof.
  intros p Hg Hv Hr r.
  assert (Hrr : r = call_ (CChild pi) (mkS T (pi :: sigma) l)) by reflexivity. clearbody r.
  rewrite call_eq0 in Hrr by reflexivity. cbn [call_body] in Hrr. unfold body_child, at_node at 1 in Hrr.
  cbn [m_root] in Hrr. rewrite Hg in Hrr. unfold p at 1 in Hrr.
  assert (Hc : child p Elem = Some e) by reflexivity.
  assert (Hge : get (pi ++ [Elem])%list T = Some e) by (erewrite get_child_at; eauto).
  unfold end_map_elem.
  assert (Hf : fin_rel g (run_cb E ecb (AElem key e) (pops_eff (pi ++ [Elem])%list) e_ecb_false (mkS T (pi :: sigma) l))
     (invoke P ecb (OElem key (view_of e)) msg_ecb_false l (fun a l => (l, inr (pops a (view_of e)))))
     (pi ++ [Elem])%list T (pi :: sigma) e).
  { apply fin_invoke with (k := fun a => pops a (view_of e)); auto.
    intros x l'. exists (apply_pops (map (map Mem) (a_pops x)) e).
    unfold pops_eff. cbn [m_root]. rewrite Hge. unfold upd; simpl.
    rewrite view_apply_pops. auto using le_apply_pops, rdy_apply_pops. }
  destruct (invoke P ecb (OElem key (view_of e)) msg_ecb_false l (fun a l => (l, inr (pops a (view_of e)))))
    as [l1 [x|w]]; cbn [andthen fin_rel] in *.
  { rewrite Hrr. apply throws_bind; auto. }
  destruct Hf as (e1 & H1 & H2 & H3 & H4). rewrite H4 in Hrr. cbn [bind] in Hrr.
  erewrite put_child_at in Hrr by eauto. unfold p in Hrr. cbn [set_child] in Hrr.
  destruct st.
  - unfold at_node in Hrr. cbn [m_root] in Hrr.
    erewrite get_put_same in Hrr; [|exact Hg|simpl; auto].
    destruct (pop_value e1) as [[v e2]|] eqn:Hp.
    + destruct (view_pop_value _ Hp) as [Hpv _]. subst w. rewrite Hpv. unfold storing.
      cbn [e_store lift] in Hrr. destruct (p_store P v) as [x|]; cbn [andthen].
      { rewrite Hrr. eexists; split; [reflexivity|auto]. }
      exists e2, (map_insert key v vals0). repeat split.
      * eapply le_trans; eauto. eapply le_pop_value; eauto.
      * unfold pop_value in Hp. destruct (get_value e1); inversion Hp; subst. apply rdy_set_set; auto.
      * intros _. rewrite Hv; auto.
      * rewrite Hrr. unfold upd; cbn [m_root m_stack m_log]. erewrite put_put; eauto; simpl; auto.
    + assert (Hpv : v_val w = None).
      { subst w. rewrite view_val. unfold pop_value in Hp. destruct (get_value e1); congruence. }
      rewrite Hpv. rewrite Hrr. eexists; split; [reflexivity|auto].
  - exists e1, vals0. rewrite Hrr. repeat split; auto.
Qed.

Lemma embedded_inv c v st t ms cb x :
  embedded c v = Some (st, t, ms, cb, x) -> c = SUni st t "" ms cb /\ v = JSc x.
Proof.
  unfold embedded. destruct c; try discriminate. destruct v; try discriminate.
  destruct (String.eqb tm "") eqn:Ht; [|discriminate]. apply String.eqb_eq in Ht.
  intros H; inversion H; subst; auto.
Qed.

Lemma schema_uni_inv c st t tm ms cb : schema_of c = SUni st t tm ms cb ->
  exists b v cur ms' ig, c = PUni b st v t tm cur ms' ig cb /\ ms = sms ms'.
Proof. destruct c; simpl; intros H; inversion H; subst. do 5 eexists; split; reflexivity. Qed.

(** The value of a member or of a map element: if the value is complete, the parent
    goes on; if an embedded union took the rest, the parent ends. *)
Lemma value_rel v ps T pi pi' sigma l s p :
  V v -> B ps ->
  sup_value supported (fun c => sup_body supported ps c) s (schema_of p) v = true ->
  get pi T = Some p -> att g p -> rdy false p ->
  let r := run E g (toks v ++ ptoks ps ++ [TMapEnd]) (mkS T (pi :: pi' :: sigma) l) in
  match value_of P (den P) (fun c l => Spec.body P (den P) ps c true (fresh_kids c) [] l) (schema_of p) v l with
  | (l', inl e) => throws r e l'
  | (l', inr (took, w)) => exists p', view_of p' = w /\ le_p g p p' /\ rdy false p' /\
      (took = false -> sup_body supported ps s = true) /\
      r = bind (call_ CPop (mkS (put pi p' T) (pi :: pi' :: sigma) l'))
               (if took then after_uni "" pi else run E g (ptoks ps ++ [TMapEnd]))
  end.
Proof.
  intros HV HB Hsup Hg Ha Hr r. unfold sup_value in Hsup. unfold value_of.
  destruct (embedded (schema_of p) v) as [[[[[st t] ms] cb] x]|] eqn:He.
  - destruct (embedded_inv _ _ He) as [Hs ->]. destruct (schema_uni_inv _ Hs) as (b & u & cur & ms' & ig & -> & ->).
    pose proof (@select_rel ps x T pi (pi' :: sigma) l b st u t "" cur ms' ig cb HB Hsup Hg Ha Hr) as H.
    cbv zeta in H. unfold r. cbn [toks app].
    destruct (select P _ st t (sms ms') cb x l) as [l1 [e|w]]; cbn [andthen]; auto.
    destruct H as (p' & H1 & H2 & H3 & H4). exists p'. split; [auto|split; [auto|split; [auto|split]]]; auto.
    discriminate.
  - apply andb_prop in Hsup. destruct Hsup as [Hs1 Hs2].
    pose proof (HV T pi (pi' :: sigma) l p Hs1 Hg Ha Hr) as H.
    assert (Hrr : r = bind (run E g (toks v) (mkS T (pi :: pi' :: sigma) l)) (run E g (ptoks ps ++ [TMapEnd])))
      by (unfold r; apply run_app). clearbody r.
    destruct (den P v (schema_of p) l) as [l1 [e|w]]; cbn [andthen val_rel] in *.
    + rewrite Hrr. apply throws_bind; auto.
    + destruct H as (p' & H1 & H2 & H3 & H4). exists p'. rewrite Hrr, H4. auto.
Qed.

Lemma sup_body_cons k v ps s :
  sup_body supported ((k, v) :: ps) s =
  match s with
  | SObj _ ms ign _ =>
      match index_of (SStr k) ms with
      | Some i =>
          match nth_error ms i with
          | Some (_, c) => sup_value supported (fun c => sup_body supported ps c) s c v
          | None => true
          end
      | None => if ign then ignorable v && sup_body supported ps s else true
      end
  | SMp _ e _ _ => sup_value supported (fun c => sup_body supported ps c) s e v
  | SUni _ t tm ms _ =>
      if String.eqb tm "" then true
      else if String.eqb k tm then
        match v with
        | JSc x => sup_select (fun c => sup_body supported ps c) t ms x
        | JArr _ => true
        | JObj _ | JNull => false
        end
      else true
  | _ => true
  end.
Proof. destruct s; reflexivity. Qed.

Lemma body_cons k v ps s empty kids vals l :
  Spec.body P (den P) ((k, v) :: ps) s empty kids vals l =
  let rest c l := Spec.body P (den P) ps c true (fresh_kids c) [] l in
  match s with
  | SObj knd ms ign cb =>
      match index_of (SStr k) ms with
      | Some i =>
          match nth_error ms i with
          | Some (_, c) =>
              andthen (value_of P (den P) rest c v l) (fun r l =>
              if fst r then end_object P knd ms cb false (set_nth i (snd r) kids) l
              else Spec.body P (den P) ps s false (set_nth i (snd r) kids) vals l)
          | None => (l, inl XOther)
          end
      | None =>
          if ign then Spec.body P (den P) ps s false kids vals l
          else err l ("Unexpected member " ++ k)
      end
  | SMp store e ecb cb =>
      andthen (value_of P (den P) rest e v l) (fun r l =>
      andthen (end_map_elem P store ecb k (snd r) vals l) (fun vals l =>
      if fst r then end_map P store cb false vals l
      else Spec.body P (den P) ps s false kids vals l))
  | SUni store t tm ms cb =>
      if String.eqb tm "" then err l msg_emb_union
      else if String.eqb k tm then
        match v with
        | JSc x => select P rest store t ms cb x l
        | JArr _ => bad l TArrStart
        | JObj _ => bad l TMapStart
        | JNull => bad l TNull
        end
      else err l ("Unexpected member " ++ k)
  | _ => bad l (TKey k)
  end.
Proof. destruct s; reflexivity. Qed.

Lemma ptoks_cons k v ps : (ptoks ((k, v) :: ps) ++ [TMapEnd] = TKey k :: toks v ++ ptoks ps ++ [TMapEnd])%list.
Proof. unfold ptoks. simpl. rewrite <- app_assoc. reflexivity. Qed.

Lemma vms_set_mem n q ms : vms (set_mem n q ms) = set_nth n (view_of q) (vms ms).
Proof. apply map_view_set_mem. Qed.

Lemma body_rel ps : Forall (fun kv => V (snd kv)) ps -> B ps.
Proof.
  induction 1 as [|[k v] ps HV HF HB]; intros T pi sigma l p empty kids vals Hsup Hg Ha Hb.
  { change (ptoks [] ++ [TMapEnd])%list with [TMapEnd]. rewrite run_one. apply mapend_rel; auto. }
  cbn [snd] in HV. rewrite ptoks_cons, sup_body_cons, body_cons in *. cbv zeta.
  match goal with |- val_rel _ _ ?r _ _ _ _ _ => set (R := r) end.
  assert (HR : R = bind (on_p P g p pi (TKey k) (mkS T (pi :: sigma) l))
                        (run E g (toks v ++ ptoks ps ++ [TMapEnd])))
    by (unfold R; erewrite run_node by eauto; reflexivity).
  clearbody R.
  destruct p; cbn [schema_of on_p on_val on_arr on_map on_obj on_uni on_ign] in *.
  - rewrite HR. apply throw_at; auto.
  - rewrite HR. apply throw_at; auto.
  - (* Map *)
    destruct Hb as (H1 & H2 & H3). destruct Ha as [Ha1 Ha2].
    rewrite Ha1 in HR. cbn [deref] in HR. rewrite Nat.eqb_refl in HR.
    unfold push, set_stack, upd in HR. cbn [bind m_root m_stack m_log set_not_empty with_base base_of] in HR.
    set (p1 := PMap (mkB (b_disp b) (b_set b) false) store k vals0 p ecb cb) in *.
    assert (Hg1 : get pi (put pi p1 T) = Some p1) by (eapply get_put_same; eauto; simpl; auto).
    assert (Hge : get (pi ++ [Elem])%list (put pi p1 T) = Some p) by (erewrite get_child_at; eauto; reflexivity).
    pose proof (@value_rel v ps (put pi p1 T) (pi ++ [Elem])%list pi sigma l _ p HV HB Hsup Hge Ha2 H3) as Hval.
    cbv zeta in Hval.
    destruct (value_of P (den P) _ (schema_of p) v l) as [l1 [x|[took w]]]; cbn [andthen fst snd].
    { simpl. rewrite HR; auto. }
    destruct Hval as (e' & Hw & Hle & Hrd & Hs & Hval). rewrite Hval in HR. clear Hval.
    rewrite cpop_cons in HR. erewrite put_child_at in HR by (eauto; reflexivity).
    unfold p1 in HR at 1. cbn [set_child] in HR. erewrite put_put in HR by (eauto; simpl; auto).
    set (p2 := PMap (mkB (b_disp b) (b_set b) false) store k vals0 e' ecb cb) in *.
    assert (Hg2 : get pi (put pi p2 T) = Some p2) by (eapply get_put_same; eauto; simpl; auto).
    pose proof (@child_done_map (put pi p2 T) pi sigma l1 _ store k vals0 e' ecb cb vals Hg2 H2 Hrd) as Hch.
    cbv zeta in Hch. rewrite Hw in Hch.
    destruct (end_map_elem P store ecb k w vals l1) as [l2 [x|vals']]; cbn [andthen].
    { simpl. rewrite HR. apply throws_bind; auto. }
    destruct Hch as (e2 & vals2 & Hle2 & Hrd2 & Hv2 & Hch). rewrite Hch in HR. clear Hch.
    erewrite put_put in HR by (eauto; simpl; auto).
    set (p3 := PMap (mkB (b_disp b) (b_set b) false) store k vals2 e2 ecb cb) in *.
    cbn [bind] in HR.
    assert (Hg3 : get pi (put pi p3 T) = Some p3) by (eapply get_put_same; eauto; simpl; auto).
    assert (Hle3 : le_p g (PMap b store key vals0 p ecb cb) p3).
    { constructor; [left; auto|eapply le_trans; eauto]. }
    assert (Hb3 : body_ok p3 false kids vals') by (simpl; auto).
    assert (Ha3 : att g p3) by (eapply le_att; [exact Hle3|simpl; auto]).
    assert (Hs3 : schema_of p3 = SMp store (schema_of p) ecb cb) by (symmetry; apply (le_schema Hle3)).
    apply val_rel_put with (p1 := p3); auto. rewrite HR.
    destruct took.
    + unfold after_uni. cbn [String.eqb]. unfold at_node at 1. cbn [m_root].
      erewrite get_child_at by eauto. cbn [child p3].
      assert (Hd2 : disp_of e2 = Some g).
      { apply att_disp. eapply le_att; [|exact Ha2]. eapply le_trans; eauto. }
      rewrite Hd2. cbn [deref]. rewrite Nat.eqb_refl.
      pose proof (@mapend_rel (put pi p3 T) pi sigma l2 p3 false kids vals' Hg3 Ha3 Hb3) as Hm.
      rewrite Hs3 in Hm. exact Hm.
    + pose proof (HB (put pi p3 T) pi sigma l2 p3 false kids vals') as Hm.
      rewrite Hs3 in Hm. apply Hm; auto.
  - (* Object *)
    destruct Hb as (H1 & H2 & H3 & H4 & H5). destruct Ha as (Ha1 & Ha2 & Ha3). fold (att_ms g) in Ha3.
    fold (sms ms) in *. unfold on_member in HR. rewrite index_of_lookup in *. unfold sms in Hsup at 1, HR |- *.
    rewrite (lookup_map schema_of) in *. fold (sms ms) in *.
    unfold disp_of in HR. cbn [base_of] in HR. rewrite Ha1 in HR. cbn [deref] in HR. rewrite Nat.eqb_refl in HR.
    unfold push, set_stack, upd in HR. cbn [m_root m_stack m_log set_not_empty with_base base_of] in HR.
    rewrite Ha1 in HR.
    set (p0 := PObj b k0 v0 ms ig ign cb) in *.
    set (p1 := PObj (mkB (Some g) (b_set b) false) k0 v0 ms ig ign cb) in *.
    assert (Hg1 : get pi (put pi p1 T) = Some p1) by (eapply get_put_same; eauto; simpl; auto).
    assert (Hle1 : le_p g p0 p1) by (constructor; auto with le; right; auto).
    destruct (lookup (SStr k) ms) as [i|] eqn:Hi.
    + destruct (lookup_nth _ _ Hi) as [[m c] Hn]. rewrite (sms_nth _ _ Hn) in *.
      cbn [bind] in HR.
      assert (Hc : child p1 (Mem i) = Some c) by (simpl; rewrite Hn; auto).
      assert (Hge : get (pi ++ [Mem i])%list (put pi p1 T) = Some c) by (erewrite get_child_at; eauto).
      assert (Hac : att g c) by (apply (att_nth _ _ _ Ha3 Hn)).
      assert (Hrc : rdy false c) by (apply (rdy_ms_nth false _ _ H3 Hn)).
      pose proof (@value_rel v ps (put pi p1 T) (pi ++ [Mem i])%list pi sigma l _ c HV HB Hsup Hge Hac Hrc) as Hval.
      cbv zeta in Hval.
      destruct (value_of P (den P) _ (schema_of c) v l) as [l1 [x|[took w]]]; cbn [andthen fst snd].
      { simpl. rewrite HR; auto. }
      destruct Hval as (c' & Hw & Hle & Hrd & Hs & Hval). rewrite Hval in HR. clear Hval.
      unfold p1 in HR at 1. erewrite child_done_obj in HR by eauto.
      fold p1 in HR. set (p3 := set_child p1 (Mem i) c') in *.
      assert (Hk3 : same_kind p0 p3) by (simpl; auto).
      erewrite put_put in HR by (eauto; simpl; auto).
      cbn [bind] in HR.
      assert (Hg3 : get pi (put pi p3 T) = Some p3) by (eapply get_put_same; eauto).
      assert (Hle3 : le_p g p0 p3) by (eapply le_trans; [exact Hle1|]; eapply le_set_child; eauto).
      assert (Hb3 : body_ok p3 false (set_nth i w kids) vals).
      { simpl. rewrite vms_set_mem, H2, Hw. repeat split; auto using rdy_ms_set_mem. }
      assert (Hat3 : att g p3) by (eapply le_att; [exact Hle3|simpl; auto]).
      assert (Hs3 : schema_of p3 = SObj k0 (sms ms) ign cb) by (symmetry; apply (le_schema Hle3)).
      apply val_rel_put with (p1 := p3); auto. rewrite HR.
      destruct took.
      * unfold after_uni. cbn [String.eqb]. unfold at_node at 1. cbn [m_root].
        erewrite get_child_at by eauto.
        assert (Hc3 : child p3 (Mem i) = Some c').
        { unfold p3. eapply child_set_child_eq; [exact Hc|simpl; auto]. }
        rewrite Hc3.
        assert (Hd2 : disp_of c' = Some g) by (apply att_disp; eapply le_att; eauto).
        rewrite Hd2. cbn [deref]. rewrite Nat.eqb_refl.
        pose proof (@mapend_rel (put pi p3 T) pi sigma l1 p3 false _ vals Hg3 Hat3 Hb3) as Hm.
        rewrite Hs3 in Hm. exact Hm.
      * pose proof (HB (put pi p3 T) pi sigma l1 p3 false (set_nth i w kids) vals) as Hm.
        rewrite Hs3 in Hm. apply Hm; auto.
    + destruct ign.
      * apply andb_prop in Hsup. destruct Hsup as [Hs1 Hs2]. cbn [bind] in HR.
        rewrite run_app in HR.
        assert (Hge : get (pi ++ [Ign])%list (put pi p1 T) = Some (PIgn ig)) by (erewrite get_child_at; eauto; reflexivity).
        destruct (ign_run v Hs1 _ _ (pi :: sigma) l Hge Ha2 H4) as (i' & Hi1 & Hi2 & _ & Hi3).
        rewrite Hi3 in HR. clear Hi3. unfold p1 in HR at 1.
        erewrite child_done_obj in HR;
          [|exact Hg1|exists (PIgn ig); split; [reflexivity|constructor; auto]].
        fold p1 in HR. set (p3 := set_child p1 Ign (PIgn i')) in *.
        erewrite put_put in HR by (eauto; simpl; auto).
        cbn [bind] in HR.
        assert (Hg3 : get pi (put pi p3 T) = Some p3) by (eapply get_put_same; eauto; simpl; auto).
        assert (Hle3 : le_p g p0 p3).
        { eapply le_trans; [exact Hle1|]. eapply le_set_child; [reflexivity|constructor; auto]. }
        assert (Hat3 : att g p3) by (eapply le_att; [exact Hle3|simpl; auto]).
        assert (Hs3 : schema_of p3 = SObj k0 (sms ms) true cb) by (symmetry; apply (le_schema Hle3)).
        apply val_rel_put with (p1 := p3); auto. rewrite HR.
        pose proof (HB (put pi p3 T) pi sigma l p3 false kids vals) as Hm.
        rewrite Hs3 in Hm. apply Hm; auto. simpl. auto.
      * simpl. rewrite HR. apply throw_at; auto.
  - (* Union *)
    destruct Hb as (H1 & H2 & H3). unfold upd in HR. fold (sms ms) in *.
    destruct (String.eqb tm "") eqn:Htm.
    { simpl. rewrite HR. apply throw_at; auto. }
    destruct (String.eqb k tm) eqn:Hk.
    2:{ simpl. rewrite HR. apply throw_at; auto. }
    cbn [bind] in HR. destruct v as [|x|js|ps']; try discriminate.
    + pose proof (@select_rel ps x T pi sigma l b store v0 t tm cur ms ig cb HB Hsup Hg Ha H3) as H.
      cbv zeta in H. cbn [toks app] in HR. rewrite <- HR in H.
      destruct (select P _ store t (sms ms) cb x l) as [l1 [e|w]]; cbn [val_rel]; auto.
      destruct H as (p' & Hp1 & Hp2 & Hp3 & Hp4). exists p'. split; [auto|split; [auto|split; [auto|]]].
      rewrite Hp4. unfold after_uni. rewrite Htm. apply bind_ok.
    + cbn [toks app] in HR. erewrite run_node in HR by eauto. cbn [on_p on_uni] in HR.
      simpl. rewrite HR. apply throw_at; auto.
  - simpl in Hb. rewrite Hb in HR. rewrite HR. apply throw_at; auto.
Qed.

(** ** Arrays *)

(** A scalar element is handed to the element parser without pushing it. *)
Lemma scalar_elem T pi st l x e :
  get pi T = Some e -> rdy false e -> supported (JSc x) (schema_of e) = true -> is_ign (schema_of e) = false ->
  match e with PVal b _ _ _ => b_disp b = None | _ => True end ->
  match den P (JSc x) (schema_of e) l with
  | (l', inl m) => throws (call_ (COn pi (TSc x)) (mkS T st l)) m l'
  | (l', inr w) => exists d, e = PVal d (ty_of x) (match e with PVal _ _ v _ => v | _ => VSc x end)
                                      (match e with PVal _ _ _ cb => cb | _ => None end) /\
      w = View true false (Some (VSc x)) 0 [] /\
      call_ (COn pi (TSc x)) (mkS T st l) =
      ROk (mkS (put pi (PVal (mkB None true false) (ty_of x) (VSc x)
                 (match e with PVal _ _ _ cb => cb | _ => None end)) T) st l')
  end.
Proof.
  intros Hg Hr Hs Hi Hd. erewrite on_node by eauto.
  destruct e; cbn [schema_of den on_p on_val on_arr on_map on_obj on_uni is_ign] in *;
    try discriminate; try (eexists; split; [reflexivity|auto]; fail).
  - rewrite ?takes_scalar_eq; destruct (vtype_eqb (ty_of x) t) eqn:Ht; [|eexists; split; [reflexivity|auto]].
    apply vtype_eqb_eq in Ht. subst t. rewrite Hd. unfold upd; cbn [m_root m_stack m_log].
    set (e1 := PVal (mkB None (b_set b) false) (ty_of x) (VSc x) cb).
    assert (HR : forall R, R = call_ (CEnd pi) (mkS (put pi e1 T) st l) -> 
       match end_value P x cb l with
       | (l', inl m) => throws R m l'
       | (l', inr w) => exists d, PVal b (ty_of x) v cb = PVal d (ty_of x) v cb /\
          w = View true false (Some (VSc x)) 0 [] /\
          R = ROk (mkS (put pi (PVal (mkB None true false) (ty_of x) (VSc x) cb) T) st l')
       end).
    2:{ apply HR; reflexivity. }
    intros R HR.
    rewrite call_eq0 in HR by reflexivity. cbn [call_body] in HR. unfold body_end, at_node at 1 in HR. cbn [m_root] in HR.
    assert (Hg1 : get pi (put pi e1 T) = Some e1) by (eapply get_put_same; eauto; simpl; auto).
    rewrite Hg1 in HR. unfold upd in HR; cbn [m_root m_stack m_log] in HR.
    set (e2 := PVal (mkB None true false) (ty_of x) (VSc x) cb) in *.
    change (set_set true e1) with e2 in HR. erewrite put_put in HR by (eauto; simpl; auto).
    assert (Hg2 : get pi (put pi e2 T) = Some e2) by (eapply get_put_same; eauto; simpl; auto).
    unfold finish, at_node at 1 in HR. cbn [m_root] in HR. rewrite Hg2 in HR.
    subst e2. cbn match in HR. unfold run_cb in HR. unfold end_value, invoke. destruct cb as [c|]; cbn match in HR.
    + cbn [m_log e_cb lift] in HR. unfold add_log, no_eff in HR; cbn [m_root m_stack m_log co_res co_away away fold_left obs_of] in HR.
      destruct (a_res (p_cb P c l (OVal (VSc x)))); unfold err; cbn [bind] in HR;
        try (rewrite HR; eexists; split; [reflexivity|auto]; fail).
      exists b. repeat split; auto. unfold at_node in HR; cbn [m_root] in HR. rewrite Hg2 in HR. auto.
    + exists b. repeat split; auto. cbn [bind] in HR. unfold at_node in HR; cbn [m_root] in HR.
      rewrite Hg2 in HR. auto.
  - destruct Hr as (-> & _). eexists; split; [reflexivity|auto].
  - simpl in Hs. rewrite ?takes_scalar_eq; destruct (vtype_eqb (ty_of x) t); [discriminate|].
    eexists; split; [reflexivity|auto].
Qed.

Lemma child_done_arr T pi sigma l b sd st vals0 e cb vals :
  let p := PArr b sd st vals0 e cb in
  get pi T = Some p -> (st = true -> vals0 = vals) ->
  let r := call_ (CChild pi) (mkS T (pi :: sigma) l) in
  (st = true /\ exists x, match v_val (view_of e) with
                         | Some v => storing P v = inl x
                         | None => x = XStd msg_unset
                         end /\ throws r x l) \/
  exists vals1 e1, 
    (st = true -> exists v, v_val (view_of e) = Some v /\ storing P v = inr v /\ vals1 = (vals ++ [v])%list) /\
    le_p g e e1 /\ (rdy false e -> rdy false e1) /\ disp_of e1 = disp_of e /\
    r = ROk (mkS (put pi (PArr b sd st vals1 e1 cb) T) (pi :: sigma) l).
Proof.
  intros p Hg Hv r. unfold r. rewrite call_eq0 by reflexivity. cbn [call_body]. unfold body_child, at_node. cbn [m_root].
  rewrite Hg. subst p. cbn match. destruct st.
  - destruct (pop_value e) as [[v e']|] eqn:Hp.
    + destruct (view_pop_value _ Hp) as [Hpv _]. cbn [e_store lift]. destruct (p_store P v) as [x|] eqn:Hst.
      { left. split; auto. exists x. rewrite Hpv. unfold storing. rewrite Hst. split; auto.
        eexists; split; [reflexivity|auto]. }
      right. exists (vals0 ++ [v])%list, e'. repeat split.
      * intros _. exists v. unfold storing. rewrite Hv, Hst; auto.
      * eapply le_pop_value; eauto.
      * unfold pop_value in Hp. destruct (get_value e); inversion Hp; subst. apply rdy_set_set; auto.
      * unfold pop_value in Hp. destruct (get_value e); inversion Hp; subst. destruct e; reflexivity.
    + left. split; auto. exists (XStd msg_unset). split.
      * rewrite view_val. unfold pop_value in Hp. destruct (get_value e); [discriminate|auto].
      * eexists; split; [reflexivity|auto].
  - right. exists vals0, e. repeat split; auto with le. discriminate.
    rewrite put_same; auto.
Qed.

Definition arr_ok (p : parser) (em : bool) (vals : list value) : Prop :=
  match p with
  | PArr b sd st vals' e _ =>
      b_disp b = Some g /\ b_empty b = em /\ sd = true /\ (st = true -> vals' = vals) /\ rdy false e /\
      match e with PVal b _ _ _ => b_disp b = None | _ => True end
  | _ => False
  end.

Lemma elems_cons st e cb j js em vals l :
  is_null j = false ->
  elems P (den P) st e cb (j :: js) em vals l =
  andthen (den P j e l) (fun w l =>
      if st then
        match v_val w with
        | Some v => andthen (l, storing P v) (fun v l => elems P (den P) st e cb js false (vals ++ [v])%list l)
        | None => err l msg_unset
        end
      else elems P (den P) st e cb js false vals l).
Proof. destruct j; simpl; intros; try discriminate; reflexivity. Qed.

Lemma elems_rel js : Forall V js -> forall T pi sigma l b st vals0 e cb em vals,
  let p := PArr b true st vals0 e cb in
  negb (is_ign (schema_of e)) = true ->
  forallb (fun j => if is_null j then is_value (schema_of e) else supported j (schema_of e)) js = true ->
  get pi T = Some p -> arr_ok p em vals ->
  val_rel P g (run E g (flat_map toks js ++ [TArrEnd]) (mkS T (pi :: sigma) l))
          (elems P (den P) st (schema_of e) cb js em vals l) pi T (pi :: sigma) p.
Proof.
  induction 1 as [|j js HVj HF IH]; intros T pi sigma l b st vals0 e cb em vals p Hign Hsup Hg Hok.
  - cbn [flat_map app elems]. rewrite run_one. erewrite disp_node by eauto. unfold p at 1. cbn [on_p on_arr].
    unfold upd; cbn [m_root m_stack m_log].
    destruct Hok as (H1 & H2 & _ & H3 & H4 & H5). destruct b as [d s em']. simpl in H1, H2. subst d em'.
    set (p1 := PArr (mkB (Some g) s em) false st vals0 e cb).
    apply val_rel_put with (p1 := p1); auto. { constructor; auto with le. }
    assert (Hg1 : get pi (put pi p1 T) = Some p1) by (eapply get_put_same; eauto; simpl; auto).
    apply cend_rel; auto. unfold p1 at 2 4. cbn [set_set with_base base_of b_disp b_empty].
    replace (end_array P st cb em vals l) with (end_array P st cb em vals0 l)
      by (unfold end_array; destruct st; auto; rewrite H3; auto).
    apply fin_array.
    + eapply get_put_same; eauto; simpl; auto.
    + simpl. auto using rdy_weaken.
  - cbn [forallb] in Hsup. apply andb_prop in Hsup. destruct Hsup as [Hs1 Hs2].
    apply negb_true_iff in Hign.
    cbn [flat_map]. rewrite <- app_assoc.
    pose proof Hok as (H1 & H2 & _ & H3 & H4 & H5).
    destruct (is_null j) eqn:Hnull.
    { (* null: only for Value *)
      destruct j; try discriminate. destruct e as [eb et ev ecb| | | | |]; try discriminate.
      cbn [toks app elems]. 
      match goal with |- val_rel _ _ ?r _ _ _ _ _ => set (R := r) end.
      assert (HR : R = bind (on_p P g p pi TNull (mkS T (pi :: sigma) l)) (run E g (flat_map toks js ++ [TArrEnd])))
        by (unfold R; erewrite run_node by eauto; reflexivity).
      clearbody R. unfold p at 1 in HR. cbn [on_p on_arr] in HR.
      assert (Hge : get (pi ++ [Elem])%list T = Some (PVal eb et ev ecb)) by (erewrite get_child_at; eauto; reflexivity).
      erewrite on_node in HR by eauto. cbn [on_p on_val] in HR. unfold on_null, disp_of in HR.
      cbn [base_of] in HR. rewrite H5 in HR. cbn [pop_if_disp bind reset] in HR.
      unfold upd in HR; cbn [m_root m_stack m_log] in HR. 
      erewrite put_child_at in HR by (eauto; reflexivity).
      unfold p in HR. cbn [set_child] in HR.
      set (p1 := PArr b true st vals0 (PVal (reset_base eb) et ev ecb) cb) in *.
      apply val_rel_put with (p1 := p1); auto. { constructor; auto with le. constructor. left; auto. }
      rewrite HR. apply (IH _ _ _ _ b st vals0 (PVal (reset_base eb) et ev ecb) cb em vals); auto.
      eapply get_put_same; eauto; simpl; auto. }
    rewrite elems_cons by auto.
    match goal with |- val_rel _ _ ?r _ _ _ _ _ => set (R := r) end.
    (* once the element is complete *)
    assert (Hfin : forall l1 e1 T1, 
       get pi T1 = Some (PArr (mkB (Some g) (b_set b) false) true st vals0 e1 cb) ->
       (exists q, le_p g p q /\ T1 = put pi q T) ->
       le_p g e e1 -> rdy false e1 ->
       match e1 with PVal b _ _ _ => b_disp b = None | _ => True end ->
       R = bind (call_ (CChild pi) (mkS T1 (pi :: sigma) l1)) (run E g (flat_map toks js ++ [TArrEnd])) ->
       val_rel P g R
         (if st
          then match v_val (view_of e1) with
               | Some v => andthen (l1, storing P v) (fun v l1 => elems P (den P) st (schema_of e) cb js false (vals ++ [v])%list l1)
               | None => err l1 msg_unset
               end
          else elems P (den P) st (schema_of e) cb js false vals l1) pi T (pi :: sigma) p).
    { intros l1 e1 T1 Hg1 (q & Hq & HT1) Hle Hrd Hd HR.
      destruct (@child_done_arr T1 pi sigma l1 _ true st vals0 e1 cb vals Hg1 H3)
        as [(Ha & x & Hb & Hc)|(vals1 & e2 & Ha & Hb & Hc & Hdd & He)].
      - subst st. destruct (v_val (view_of e1)) as [v|]; [rewrite Hb|subst x]; simpl; rewrite HR; apply throws_bind; auto.
      - rewrite He in HR. cbn [bind] in HR. 
        set (p1 := PArr (mkB (Some g) (b_set b) false) true st vals1 e2 cb) in *.
        assert (Hk1 : same_kind p q) by apply (le_kind Hq).
        rewrite HT1 in HR. erewrite put_put in HR by (eauto; simpl; auto).
        apply val_rel_put with (p1 := p1); auto.
        { constructor; [right; auto|eapply le_trans; eauto]. }
        assert (Hsc : schema_of e2 = schema_of e).
        { symmetry. apply (le_schema (g := g)). eapply le_trans; eauto. }
        rewrite HR, <- Hsc.
        assert (Hd2 : match e2 with PVal b _ _ _ => b_disp b = None | _ => True end).
        { assert (Hkk := le_kind Hb). destruct e1, e2; simpl in Hkk; try tauto; auto.
          unfold disp_of in Hdd; simpl in *. congruence. }
        destruct st.
        + destruct (Ha eq_refl) as (v & Hv1 & Hv3 & Hv2). rewrite Hv1, Hv3. cbn [andthen]. subst vals1.
          apply (IH _ _ _ _ (mkB (Some g) (b_set b) false) true (vals ++ [v])%list e2 cb false (vals ++ [v])%list); auto.
          * rewrite Hsc, Hign; auto.
          * rewrite Hsc; auto.
          * eapply get_put_same; eauto; simpl; auto.
          * simpl. repeat split; auto.
        + apply (IH _ _ _ _ (mkB (Some g) (b_set b) false) false vals1 e2 cb false vals); auto.
          * rewrite Hsc, Hign; auto.
          * rewrite Hsc; auto.
          * eapply get_put_same; eauto; simpl; auto.
          * simpl. repeat split; auto. discriminate. }
    assert (Hge : get (pi ++ [Elem])%list T = Some e) by (erewrite get_child_at; eauto; reflexivity).
    assert (Hcomp : forall t ts, toks j = t :: ts -> (t = TMapStart \/ t = TArrStart) ->
       val_rel P g R
         (andthen (den P j (schema_of e) l) (fun w l =>
          if st
          then match v_val w with
               | Some v => andthen (l, storing P v) (fun v l => elems P (den P) st (schema_of e) cb js false (vals ++ [v])%list l)
               | None => err l msg_unset
               end
          else elems P (den P) st (schema_of e) cb js false vals l)) pi T (pi :: sigma) p).
    { intros t ts Ht Htt.
      set (e0 := set_disp (Some g) e).
      set (p1 := PArr (mkB (Some g) (b_set b) false) true st vals0 e0 cb).
      assert (HR : R = bind (run E g (toks j) (mkS (put pi p1 T) ((pi ++ [Elem])%list :: pi :: sigma) l))
                            (run E g (flat_map toks js ++ [TArrEnd]))).
      { unfold R. rewrite run_app. f_equal. rewrite Ht. 
        assert (Hg1 : get pi (put pi p1 T) = Some p1) by (eapply get_put_same; eauto; simpl; auto).
        assert (Hge1 : get (pi ++ [Elem])%list (put pi p1 T) = Some e0) by (erewrite get_child_at; eauto; reflexivity).
        erewrite run_node by eauto. erewrite run_node by eauto. f_equal.
        rewrite <- on_node with (1 := Hge1).
        unfold p at 1. cbn [on_p on_arr].
        assert (Ha : arr_enter g call_ pi p t (mkS T (pi :: sigma) l) =
                     call_ (COn (pi ++ [Elem])%list t) (mkS (put pi p1 T) ((pi ++ [Elem])%list :: pi :: sigma) l)).
        { unfold arr_enter, p. rewrite H1. cbn [deref]. rewrite Nat.eqb_refl.
          unfold push, set_stack, upd. cbn [m_root m_stack m_log set_not_empty with_base base_of].
          rewrite H1. reflexivity. }
        destruct Htt; subst t; exact Ha. }
      clearbody R.
      assert (Hg1 : get pi (put pi p1 T) = Some p1) by (eapply get_put_same; eauto; simpl; auto).
      assert (Hge1 : get (pi ++ [Elem])%list (put pi p1 T) = Some e0) by (erewrite get_child_at; eauto; reflexivity).
      assert (Hs0 : schema_of e0 = schema_of e) by (symmetry; apply (le_schema (le_set_disp g e))).
      pose proof (HVj (put pi p1 T) (pi ++ [Elem])%list (pi :: sigma) l e0) as HV'.
      rewrite Hs0 in HV'.
      specialize (HV' Hs1 Hge1 (att_set_disp g e) (rdy_set_disp _ _ H4)).
      destruct (den P j (schema_of e) l) as [l1 [x|w]] eqn:Hden; cbn [andthen val_rel] in *.
      { rewrite HR. apply throws_bind; auto. }
      destruct HV' as (e1 & Hw & Hle & Hrd & HV'). change (list step) with path in HR. rewrite HV' in HR. clear HV'.
      rewrite cpop_cons in HR. erewrite put_child_at in HR by (eauto; reflexivity).
      unfold p1 in HR. cbn [set_child] in HR. fold p1 in HR.
      erewrite put_put in HR by (eauto; simpl; auto).
      subst w.
      assert (Hle' : le_p g e e1) by (eapply le_trans; [apply le_set_disp|eauto]).
      apply (Hfin l1 e1 (put pi (PArr (mkB (Some g) (b_set b) false) true st vals0 e1 cb) T)); auto.
      - eapply get_put_same; eauto; simpl; auto.
      - eexists; split; [|reflexivity]. constructor; auto. right; auto.
      - assert (Hsv : is_value (schema_of e) = false).
        { destruct (schema_of e); auto. destruct j; simpl in *; try discriminate;
          destruct Htt; congruence. }
        rewrite (le_schema Hle') in Hsv. destruct e1; auto. discriminate. }
    destruct j as [|x|js'|ps']; try discriminate.
    2:{ eapply Hcomp; [reflexivity|auto]. }
    2:{ eapply Hcomp; [reflexivity|auto]. }
    (* scalar *)
    clear Hcomp.
    assert (HR : R = bind (on_p P g p pi (TSc x) (mkS T (pi :: sigma) l)) (run E g (flat_map toks js ++ [TArrEnd])))
      by (unfold R; cbn [toks app]; erewrite run_node by eauto; reflexivity).
    unfold p at 1 in HR. cbn [on_p on_arr] in HR. clearbody R.
    pose proof (@scalar_elem T (pi ++ [Elem])%list (pi :: sigma) l x e Hge H4 Hs1 Hign H5) as Hsc.
    destruct (den P (JSc x) (schema_of e) l) as [l1 [m|w]]; cbn [andthen].
    { simpl. rewrite HR. do 2 apply throws_bind; auto. }
    destruct Hsc as (d & He & Hw & Hsc). rewrite Hsc in HR. clear Hsc. cbn [bind] in HR.
    erewrite put_child_at in HR by (eauto; reflexivity). unfold p in HR at 1 2. cbn [set_child] in HR.
    unfold at_node at 1 in HR. cbn [m_root] in HR.
    set (e1 := PVal (mkB None true false) (ty_of x) (VSc x) (match e with PVal _ _ _ cb => cb | _ => None end)) in *.
    set (p1 := PArr b true st vals0 e1 cb) in *.
    erewrite get_put_same in HR; [|exact Hg|simpl; auto].
    unfold upd in HR. cbn [m_root m_stack m_log set_not_empty with_base base_of p1] in HR. rewrite H1 in HR.
    erewrite put_put in HR by (eauto; simpl; auto).
    replace w with (view_of e1) by auto.
    assert (Hle : le_p g e e1).
    { destruct e; try discriminate. inversion He; subst. simpl in H5. unfold e1. constructor. left. auto. }
    apply (Hfin l1 e1 (put pi (PArr (mkB (Some g) (b_set b) false) true st vals0 e1 cb) T)); auto.
    + eapply get_put_same; eauto; simpl; auto.
    + eexists; split; [|reflexivity]. constructor; auto. right; auto.
    + simpl; auto.
    + simpl; auto.
Qed.

(** ** All values *)
Theorem value_run j : V j.
Proof.
  induction j as [|x|js IH|ps IH] using json_ind'; intros T pi sigma l p Hsup Hg Ha Hr.
  - cbn [toks den]. rewrite run_one. erewrite disp_node by eauto.
    assert (Hd := att_disp _ _ Ha).
    destruct p; cbn [on_p on_val on_arr on_map on_obj on_uni on_ign];
      try (apply null_rel; auto using rdy_weaken; fail).
    destruct Hr as (-> & Hr). apply null_rel; simpl; auto.
  - cbn [toks]. rewrite run_one. erewrite disp_node by eauto.
    assert (Hd := att_disp _ _ Ha).
    destruct p; cbn [on_p on_val on_arr on_map on_obj on_uni schema_of den];
      try (eexists; split; [reflexivity|auto]; fail).
    + rewrite ?takes_scalar_eq; destruct (vtype_eqb (ty_of x) t); [|eexists; split; [reflexivity|auto]].
      unfold upd; cbn [m_root m_stack m_log].
      set (p1 := PVal (mkB (b_disp b) (b_set b) false) t (VSc x) cb).
      apply val_rel_put with (p1 := p1); auto. { constructor. left; auto. }
      assert (Hg1 : get pi (put pi p1 T) = Some p1) by (eapply get_put_same; eauto; simpl; auto).
      apply cend_rel; auto.
      unfold p1 at 2 4. cbn [set_set with_base base_of b_disp b_empty]. apply fin_value.
      eapply get_put_same; eauto; simpl; auto.
    + destruct Hr as (-> & _). eexists; split; [reflexivity|auto].
    + simpl in Hsup. rewrite ?takes_scalar_eq; destruct (vtype_eqb (ty_of x) t); [discriminate|].
      eexists; split; [reflexivity|auto].
    + destruct (Hr eq_refl) as [Hr1 Hr2].
      destruct (ign_run (JSc x) eq_refl T pi sigma l Hg Ha Hr1) as (i' & H1 & H2 & H3 & H4).
      destruct (H3 Hr2) as [H5 H6]. exists (PIgn i'). split; [exact H6|]. split; [constructor; auto|].
      split; [simpl; auto|]. cbn [toks] in H4. rewrite run_one in H4. erewrite disp_node in H4 by eauto.
      exact H4.
  - destruct p; cbn [schema_of] in *.
    + cbn [toks den]. erewrite run_node by eauto. eexists; split; [reflexivity|auto].
    + rewrite den_arr. destruct Hr as (Hsd & Hre & Hd). subst started. simpl in Ha.
      cbn [supported] in Hsup. apply andb_prop in Hsup. destruct Hsup as [Hs1 Hs2].
      cbn [toks].
      match goal with |- val_rel _ _ ?r _ _ _ _ _ => set (R := r) end.
      set (p0 := PArr b false store vals p cb) in *.
      assert (HR : R = bind (on_p P g p0 pi TArrStart (mkS T (pi :: sigma) l)) (run E g (flat_map toks js ++ [TArrEnd])))
        by (unfold R; erewrite run_node by eauto; reflexivity).
      clearbody R. unfold p0 in HR. cbn [on_p on_arr reset bind] in HR.
      unfold upd in HR; cbn [m_root m_stack m_log] in HR.
      set (p1 := PArr (reset_base b) true store (if store then [] else vals) (reset p) cb) in *.
      apply val_rel_put with (p1 := p1); auto. { constructor; auto using le_reset. left; auto. }
      rewrite HR, <- (schema_reset p).
      apply elems_rel; auto.
      * rewrite schema_reset; auto.
      * rewrite schema_reset; auto.
      * eapply get_put_same; eauto; simpl; auto.
      * simpl. repeat split; auto using rdy_reset. { intros ->; auto. }
        destruct p; simpl; auto.
    + cbn [toks den]. erewrite run_node by eauto. eexists; split; [reflexivity|auto].
    + cbn [toks den]. erewrite run_node by eauto. eexists; split; [reflexivity|auto].
    + cbn [toks den]. erewrite run_node by eauto. eexists; split; [reflexivity|auto].
    + destruct (Hr eq_refl) as [Hr1 Hr2].
      destruct (ign_run (JArr js) Hsup T pi sigma l Hg Ha Hr1) as (i' & H1 & H2 & H3 & H4).
      destruct (H3 Hr2) as [H5 H6]. exists (PIgn i'). split; [exact H6|]. split; [constructor; auto|].
      split; [simpl; auto|]. exact H4.
  - assert (HB := body_rel IH).
    assert (Hgo : forall (Hs : match schema_of p with SObj _ _ _ _ | SMp _ _ _ _ | SUni _ _ _ _ _ => True | _ => False end),
       sup_body supported ps (schema_of p) = true ->
       on_p P g p pi TMapStart (mkS T (pi :: sigma) l) = ROk (upd (mkS T (pi :: sigma) l) pi (reset p)) ->
       val_rel P g (run E g (toks (JObj ps)) (mkS T (pi :: sigma) l))
         (Spec.body P (den P) ps (schema_of p) true (fresh_kids (schema_of p)) [] l) pi T (pi :: sigma) p).
    { intros Hs Hsb Ho. cbn [toks]. erewrite run_node by eauto. rewrite Ho. cbn [bind].
      unfold upd; cbn [m_root m_stack m_log].
      apply val_rel_put with (p1 := reset p); auto using le_reset.
      fold (ptoks ps). rewrite <- (schema_reset p). apply HB.
      - rewrite schema_reset; auto.
      - eapply get_put_same; eauto. apply (le_kind (le_reset g p)).
      - apply att_reset; auto.
      - rewrite schema_reset. apply body_ok_reset. apply rdy_weaken; auto. }
    destruct p; cbn [schema_of] in *.
    + cbn [toks den]. erewrite run_node by eauto. eexists; split; [reflexivity|auto].
    + destruct Hr as (-> & _). cbn [toks den]. erewrite run_node by eauto. eexists; split; [reflexivity|auto].
    + rewrite den_obj by exact I. apply Hgo; auto.
    + rewrite den_obj by exact I. apply Hgo; auto.
    + rewrite den_uni. cbn [supported] in Hsup. destruct (String.eqb tm "") eqn:Htm.
      * cbn [toks]. erewrite run_node by eauto. cbn [on_p on_uni]. rewrite Htm. eexists; split; [reflexivity|auto].
      * apply Hgo; auto. cbn [on_p on_uni]. rewrite Htm. reflexivity.
    + destruct (Hr eq_refl) as [Hr1 Hr2].
      destruct (ign_run (JObj ps) Hsup T pi sigma l Hg Ha Hr1) as (i' & H1 & H2 & H3 & H4).
      destruct (H3 Hr2) as [H5 H6]. exists (PIgn i'). split; [exact H6|]. split; [constructor; auto|].
      split; [simpl; auto|]. exact H4.
Qed.

(** ** A document for the root parser *)
Theorem document_run j p l :
  supported j (schema_of p) = true -> att g p -> rdy false p ->
  let r := run E g (toks j) (mkS p [[]] l) in
  match den P j (schema_of p) l with
  | (l', inr w) => exists p', r = ROk (mkS p' [] l') /\ view_of p' = w /\ le_p g p p' /\ rdy false p'
  | (l', inl e) => throws r e l'
  end.
Proof.
  intros Hs Ha Hr r. pose proof (@value_run j p [] [] l p Hs eq_refl Ha Hr) as H.
  change (val_rel P g r (den P j (schema_of p) l) [] p [[]] p) in H.
  destruct (den P j (schema_of p) l) as [l1 [e|w]]; cbn [val_rel] in H; auto.
  destruct H as (p' & H1 & H2 & H3 & H4). exists p'. rewrite H4, cpop_last. auto.
Qed.
End Main.

Lemma rdy_mk s : rdy false (mk s).
Proof.
  induction s as [| ? ? ? IH| ? ? ? ? IH|? ? ? ? IH|? ? ? ? ? IH|] using schema_ind'; simpl; auto.
  - repeat split; auto using rdy_weaken. destruct s; simpl; auto.
  - fold (rdy_ms true). induction IH as [|mp q Hq _ IHq]; simpl in *; auto using rdy_weaken.
  - fold (rdy_ms true). induction IH as [|mp q Hq _ IHq]; simpl in *; auto using rdy_weaken.
Qed.
