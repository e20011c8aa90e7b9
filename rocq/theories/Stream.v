(** The machine computes the meaning of beginnings of documents (StreamSpec.v). *)

From Verif Require Import Spec StreamSpec Model Infra Total Safe Refine Main.
Local Open Scope string_scope.
Set Implicit Arguments.

Section Stream.
Variable P : prog.
Variable g : nat.
Notation E := (lift P).
Notation call_ := (call_ E g).

Hint Constructors le_p le_ms : le.
Hint Resolve le_refl le_ms_refl le_b_refl le_i_refl : le.

(** The parser at [pi] is still open: it is on the stack, perhaps below others. *)
Definition open_rel (r : res) (o : out) (pi : path) (T : parser) (sigma : list path) (p : parser) : Prop :=
  match o with
  | (l, inr w) =>
      exists p' st', view_of p' = w /\ le_p g p p' /\
                     r = ROk (mkS (put pi p' T) (st' ++ pi :: sigma)%list l)
  | (l, inl e) => throws r e l
  end.

Lemma open_rel_put r o pi T sigma p p1 :
  get pi T = Some p -> le_p g p p1 ->
  open_rel r o pi (put pi p1 T) sigma p1 -> open_rel r o pi T sigma p.
Proof.
  intros Hg Hle. destruct o as [l [e|w]]; simpl; auto.
  intros (p' & st' & H1 & H2 & H3). exists p', st'; repeat split; auto.
  - eapply le_trans; eauto.
  - rewrite H3. erewrite put_put; eauto.
    + eapply same_kind_trans; [apply (le_kind Hle)|apply (le_kind H2)].
    + apply (le_kind Hle).
Qed.

Lemma bad_here t s l k : m_log s = l -> throws (bind (RThrow (unexpected t) s) k) (unexpected t) l.
Proof. intros. apply throw_at; auto. Qed.

Definition open_ok (p : parser) (empty : bool) (kids : list view) (vals : list (string * value)) : Prop :=
  body_ok p empty kids vals /\ view_of p = opened empty kids.

Lemma fresh_opened s : fresh s = opened true (fresh_kids s).
Proof. destruct s; reflexivity. Qed.

Lemma open_ok_reset p : rdy true p -> open_ok (reset p) true (fresh_kids (schema_of p)) [].
Proof.
  intros H. split; [apply body_ok_reset; auto|]. rewrite view_reset. apply fresh_opened.
Qed.

(** What follows the complete members: [ts] are its tokens, [stop] its meaning. *)
Definition Stop (ts : list token) (stop : schema -> bool -> list view -> list event -> out)
           (sstop : schema -> bool) : Prop :=
  forall T pi sigma l p empty kids vals,
  sstop (schema_of p) = true -> get pi T = Some p -> att g p -> open_ok p empty kids vals ->
  open_rel (run E g ts (mkS T (pi :: sigma) l)) (stop (schema_of p) empty kids l) pi T sigma p.

Lemma pbody_cons stop k v ps s empty kids vals l :
  pbody P stop ((k, v) :: ps) s empty kids vals l =
  let rest c l := pbody P stop ps c true (fresh_kids c) [] l in
  match s with
  | SObj _ ms ign _ =>
      match index_of (SStr k) ms with
      | Some i =>
          match nth_error ms i with
          | Some (_, c) =>
              match embedded c v with
              | Some (_, t, ms', _, x) =>
                  andthen (pselect P rest t ms' x l) (fun u l =>
                    (l, inr (opened false (set_nth i u kids))))
              | None =>
                  andthen (den P v c l) (fun w l =>
                    pbody P stop ps s false (set_nth i w kids) vals l)
              end
          | None => (l, inl XOther)
          end
      | None =>
          if ign then pbody P stop ps s false kids vals l
          else err l ("Unexpected member " ++ k)
      end
  | SMp store e ecb _ =>
      match embedded e v with
      | Some (_, t, ms', _, x) =>
          andthen (pselect P rest t ms' x l) (fun _ l => (l, inr (opened false [])))
      | None =>
          andthen (den P v e l) (fun w l =>
          andthen (end_map_elem P store ecb k w vals l) (fun vals l =>
            pbody P stop ps s false kids vals l))
      end
  | SUni _ t tm ms _ =>
      if String.eqb tm "" then err l msg_emb_union
      else if String.eqb k tm then
        match v with
        | JSc x => pselect P rest t ms x l
        | JArr _ => bad l TArrStart
        | JObj _ => bad l TMapStart
        | JNull => bad l TNull
        end
      else err l ("Unexpected member " ++ k)
  | _ => bad l (TKey k)
  end.
Proof. destruct s; reflexivity. Qed.

Lemma psup_body_cons stop k v ps s :
  psup_body stop ((k, v) :: ps) s =
  match s with
  | SObj _ ms ign _ =>
      match index_of (SStr k) ms with
      | Some i =>
          match nth_error ms i with
          | Some (_, c) => sup_value supported (fun c => psup_body stop ps c) s c v
          | None => true
          end
      | None => if ign then ignorable v && psup_body stop ps s else true
      end
  | SMp _ e _ _ => sup_value supported (fun c => psup_body stop ps c) s e v
  | SUni _ t tm ms _ =>
      if String.eqb tm "" then true
      else if String.eqb k tm then
        match v with
        | JSc x => sup_select (fun c => psup_body stop ps c) t ms x
        | JArr _ => true
        | JObj _ | JNull => false
        end
      else true
  | _ => true
  end.
Proof. destruct s; reflexivity. Qed.

Lemma member_toks_cons k v ps ts :
  (member_toks ((k, v) :: ps) ++ ts = TKey k :: toks v ++ member_toks ps ++ ts)%list.
Proof. unfold member_toks. simpl. rewrite <- app_assoc. reflexivity. Qed.

Section Body.
Variable ts : list token.
Variable stop : schema -> bool -> list view -> list event -> out.
Variable sstop : schema -> bool.
Hypothesis HS : Stop ts stop sstop.

Definition PB (ps : list (string * json)) : Prop := forall T pi sigma l p empty kids vals,
  psup_body sstop ps (schema_of p) = true -> get pi T = Some p -> att g p ->
  open_ok p empty kids vals ->
  open_rel (run E g (member_toks ps ++ ts) (mkS T (pi :: sigma) l))
           (pbody P stop ps (schema_of p) empty kids vals l) pi T sigma p.

Lemma pselect_rel ps x T pi sigma l b sto v t tm cur ms ig cb :
  let p := PUni b sto v t tm cur ms ig cb in
  PB ps -> sup_select (fun c => psup_body sstop ps c) t (sms ms) x = true ->
  get pi T = Some p -> att g p -> rdy_ms true ms ->
  open_rel (run E g (TSc x :: member_toks ps ++ ts) (mkS T (pi :: sigma) l))
    (pselect P (fun c l => pbody P stop ps c true (fresh_kids c) [] l) t (sms ms) x l) pi T sigma p.
Proof.
  intros p HB Hsup Hg Ha Hr.
  match goal with |- open_rel ?r0 _ _ _ _ _ => set (r := r0) end.
  assert (Hrr : r = bind (on_p P g p pi (TSc x) (mkS T (pi :: sigma) l)) (run E g (member_toks ps ++ ts)))
    by (unfold r; erewrite run_node by eauto; reflexivity).
  clearbody r. unfold p at 1 in Hrr.
  cbn [on_p on_uni] in Hrr. unfold pselect. unfold sup_select in Hsup.
  rewrite ?takes_scalar_eq in *; destruct (vtype_eqb (ty_of x) t) eqn:Ht; [|simpl; rewrite Hrr; apply throw_at; auto].
  rewrite index_of_lookup in *. unfold sms in *. rewrite (lookup_map schema_of) in *. fold (sms ms) in *.
  unfold on_member in Hrr.
  destruct (lookup x ms) as [i|] eqn:Hi; [|simpl; rewrite Hrr; apply throw_at; auto].
  destruct (lookup_nth _ _ Hi) as [[m c] Hn]. rewrite (sms_nth _ _ Hn) in *.
  set (p1 := reset p) in *.
  assert (Hd1 : disp_of p1 = Some g) by (apply att_disp, att_reset; auto).
  fold p in Hrr. fold p1 in Hrr. rewrite Hd1 in Hrr. cbn [deref] in Hrr. rewrite Nat.eqb_refl in Hrr.
  unfold upd, push, set_stack in Hrr. cbn [m_root m_stack m_log] in Hrr.
  assert (Hk1 : same_kind p p1) by (simpl; auto).
  assert (Hk2 : same_kind p (set_not_empty p1)) by (simpl; auto).
  assert (Hg2 : get pi (put pi p1 T) = Some p1) by (eapply get_put_same; eauto).
  assert (Hg3 : get pi (put pi (set_not_empty p1) (put pi p1 T)) = Some (set_not_empty p1))
    by (eapply get_put_same; eauto; simpl; auto).
  cbn [bind] in Hrr. unfold at_node at 1 in Hrr. cbn [m_root] in Hrr. rewrite Hg3 in Hrr.
  erewrite put_put in * by eauto.
  unfold p1 at 1, p at 1 in Hrr.
  cbn [reset set_not_empty with_base base_of bind m_root m_stack m_log] in Hrr.
  set (ms1 := map (fun mp : mspec * parser => (fst mp, reset (snd mp))) ms) in *.
  set (p2 := PUni (mkB (b_disp (reset_base b)) (b_set (reset_base b)) false) sto
       (if sto then dflt p else v) t tm i ms1 (reset_ig ig) cb).
  fold p1 in Hrr. change (PUni _ sto _ t tm i _ _ cb) with p2 in Hrr.
  erewrite put_put in Hrr by (eauto; simpl; auto).
  assert (Hg4 : get pi (put pi p2 T) = Some p2) by (eapply get_put_same; eauto; simpl; auto).
  assert (Hn1 : nth_error ms1 i = Some (m, reset c)) by (apply reset_ms_nth; auto).
  assert (Hc : child p2 (Mem i) = Some (reset c)) by (simpl; rewrite Hn1; auto).
  assert (Hgc : get (pi ++ [Mem i])%list (put pi p2 T) = Some (reset c))
    by (erewrite get_child_at; eauto).
  assert (Hac : att g c).
  { simpl in Ha. fold (att_ms g) in Ha. eapply att_nth with (mp := (m, c)); [|eauto]. apply Ha. }
  assert (Hrc : rdy true c) by (apply (rdy_ms_nth true _ _ Hr Hn)).
  assert (Hle2 : le_p g p p2).
  { eapply le_trans; [apply le_reset|]. constructor; auto with le. left; auto. }
  pose proof (HB (put pi p2 T) (pi ++ [Mem i])%list (pi :: sigma) l (reset c) true
                 (fresh_kids (schema_of c)) []) as HBc.
  rewrite (schema_reset g) in HBc. specialize (HBc Hsup Hgc (@att_reset g c Hac) (@open_ok_reset c Hrc)).
  destruct (pbody P stop ps (schema_of c) true (fresh_kids (schema_of c)) [] l) as [l1 [e|w]];
    cbn [andthen open_rel] in *; auto.
  { rewrite Hrr; auto. }
  destruct HBc as (c' & st' & H1 & H2 & HBc). rewrite HBc in Hrr.
  erewrite put_child_at in Hrr by eauto.
  set (p3 := set_child p2 (Mem i) c') in *.
  erewrite put_put in Hrr by (eauto; simpl; auto).
  assert (Hle3 : le_p g p2 p3) by (eapply le_set_child; eauto).
  exists p3, (st' ++ [pi ++ [Mem i]])%list. repeat split.
  - unfold p3, p2. cbn [set_child view_of reset_base b_set b_empty base_of]. unfold opened. 
    change (get_value _) with (@None value). f_equal.
    rewrite map_view_set_mem. unfold sms. rewrite H1. f_equal.
    unfold ms1. rewrite !map_map. cbn [snd fst]. apply map_ext. intros. apply view_reset.
  - eapply le_trans; eauto.
  - rewrite Hrr. rewrite <- app_assoc. reflexivity.
Qed.

Lemma open_obj b k v ms ig ign cb empty kids :
  view_of (PObj b k v ms ig ign cb) = opened empty kids -> b_set b = false.
Proof. simpl. unfold opened. congruence. Qed.

Lemma view_open_obj b k v ms ig ign cb :
  b_set b = false -> view_of (PObj b k v ms ig ign cb) = opened (b_empty b) (vms ms).
Proof.
  intros H. cbn [view_of base_of]. unfold opened, get_value, is_set. cbn [base_of]. rewrite H. reflexivity.
Qed.

Lemma view_open_map b st key vals e ecb cb :
  b_set b = false -> view_of (PMap b st key vals e ecb cb) = opened (b_empty b) [].
Proof.
  intros H. cbn [view_of base_of]. unfold opened, get_value, is_set. cbn [base_of]. rewrite H. reflexivity.
Qed.

Lemma view_open_arr b sd st vals e cb :
  b_set b = false -> view_of (PArr b sd st vals e cb) = opened (b_empty b) [].
Proof.
  intros H. cbn [view_of base_of]. unfold opened, get_value, is_set. cbn [base_of]. rewrite H. reflexivity.
Qed.

Lemma pbody_rel ps : PB ps.
Proof.
  induction ps as [|[k v] ps HB]; intros T pi sigma l p empty kids vals Hsup Hg Ha Hb.
  { cbn [member_toks flat_map app pbody psup_body] in *. eapply HS; eauto. }
  rewrite member_toks_cons, psup_body_cons, pbody_cons in *. cbv zeta.
  match goal with |- open_rel ?r _ _ _ _ _ => set (R := r) end.
  assert (HR : R = bind (on_p P g p pi (TKey k) (mkS T (pi :: sigma) l))
                        (run E g (toks v ++ member_toks ps ++ ts)))
    by (unfold R; erewrite run_node by eauto; reflexivity).
  clearbody R. destruct Hb as [Hb Hvw].
  destruct p; cbn [schema_of on_p on_val on_arr on_map on_obj on_uni on_ign] in *.
  - simpl. rewrite HR. apply throw_at; auto.
  - simpl. rewrite HR. apply throw_at; auto.
  - (* Map *)
    destruct Hb as (H1 & H2 & H3). destruct Ha as [Ha1 Ha2].
    assert (Hbs : b_set b = false) by (simpl in Hvw; unfold opened in Hvw; congruence).
    assert (Hkids : kids = []) by (simpl in Hvw; unfold opened in Hvw; congruence).
    rewrite Ha1 in HR. cbn [deref] in HR. rewrite Nat.eqb_refl in HR.
    unfold push, set_stack, upd in HR. cbn [bind m_root m_stack m_log set_not_empty with_base base_of] in HR.
    set (p1 := PMap (mkB (b_disp b) (b_set b) false) store k vals0 p ecb cb) in *.
    assert (Hg1 : get pi (put pi p1 T) = Some p1) by (eapply get_put_same; eauto; simpl; auto).
    assert (Hge : get (pi ++ [Elem])%list (put pi p1 T) = Some p) by (erewrite get_child_at; eauto; reflexivity).
    assert (Hle1 : le_p g (PMap b store key vals0 p ecb cb) p1) by (constructor; [left; auto|auto with le]).
    unfold sup_value in Hsup.
    destruct (embedded (schema_of p) v) as [[[[[st t] ms] cb0] x]|] eqn:He.
    + destruct (embedded_inv _ _ He) as [Hs ->]. destruct (schema_uni_inv _ Hs) as (ub & u & cur & ms' & ig & -> & ->).
      cbn [toks app] in HR.
      pose proof (@pselect_rel ps x (put pi p1 T) (pi ++ [Elem])%list (pi :: sigma) l ub st u t "" cur ms' ig cb0
                    HB Hsup Hge Ha2 H3) as H.
      rewrite <- HR in H.
      destruct (pselect P _ t (sms ms') x l) as [l1 [e|w]]; cbn [andthen open_rel] in *; auto.
      destruct H as (e' & st' & Hw & Hle & H).
      erewrite put_child_at in H by (eauto; reflexivity). unfold p1 in H at 1. cbn [set_child] in H.
      erewrite put_put in H by (eauto; simpl; auto).
      eexists (PMap _ store k vals0 e' ecb cb), (st' ++ [pi ++ [Elem]])%list. repeat split.
      3:{ rewrite H. rewrite <- app_assoc. reflexivity. }
      * rewrite view_open_map by auto. reflexivity.
      * constructor; [left; auto|auto].
    + apply andb_prop in Hsup. destruct Hsup as [Hs1 Hs2].
      pose proof (@value_run P g v (put pi p1 T) (pi ++ [Elem])%list (pi :: sigma) l p Hs1 Hge Ha2 H3) as Hval.
      rewrite run_app in HR.
      destruct (den P v (schema_of p) l) as [l1 [x|w]]; cbn [andthen val_rel] in *.
      { simpl. rewrite HR. apply throws_bind; auto. }
      destruct Hval as (e' & Hw & Hle & Hrd & Hval). change (list step) with path in HR. rewrite Hval in HR. clear Hval.
      rewrite cpop_cons in HR. erewrite put_child_at in HR by (eauto; reflexivity).
      unfold p1 in HR at 1. cbn [set_child] in HR. erewrite put_put in HR by (eauto; simpl; auto).
      set (p2 := PMap (mkB (b_disp b) (b_set b) false) store k vals0 e' ecb cb) in *.
      assert (Hg2 : get pi (put pi p2 T) = Some p2) by (eapply get_put_same; eauto; simpl; auto).
      pose proof (@child_done_map P g (put pi p2 T) pi sigma l1 _ store k vals0 e' ecb cb vals Hg2 H2 Hrd) as Hch.
      cbv zeta in Hch. rewrite Hw in Hch.
      destruct (end_map_elem P store ecb k w vals l1) as [l2 [x|vals']]; cbn [andthen].
      { simpl. rewrite HR. apply throws_bind; auto. }
      destruct Hch as (e2 & vals2 & Hle2 & Hrd2 & Hv2 & Hch). rewrite Hch in HR. clear Hch.
      erewrite put_put in HR by (eauto; simpl; auto).
      set (p3 := PMap (mkB (b_disp b) (b_set b) false) store k vals2 e2 ecb cb) in *.
      cbn [bind] in HR.
      assert (Hg3 : get pi (put pi p3 T) = Some p3) by (eapply get_put_same; eauto; simpl; auto).
      assert (Hle3 : le_p g (PMap b store key vals0 p ecb cb) p3).
      { constructor; [left; auto|eapply le_trans; eauto]. }
      assert (Hb3 : open_ok p3 false kids vals').
      { split; [simpl; auto|]. unfold p3. rewrite view_open_map by auto. subst kids; reflexivity. }
      assert (Ha3 : att g p3) by (eapply le_att; [exact Hle3|simpl; auto]).
      assert (Hs3 : schema_of p3 = SMp store (schema_of p) ecb cb) by (symmetry; apply (le_schema Hle3)).
      apply open_rel_put with (p1 := p3); auto. rewrite HR.
      pose proof (HB (put pi p3 T) pi sigma l2 p3 false kids vals') as Hm.
      rewrite Hs3 in Hm. apply Hm; auto.
  - (* Object *)
    assert (Hbs : b_set b = false) by (eapply open_obj; eauto).
    destruct Hb as (H1 & H2 & H3 & H4 & H5). destruct Ha as (Ha1 & Ha2 & Ha3). fold (att_ms g) in Ha3.
    fold (sms ms) in *. unfold on_member in HR. rewrite index_of_lookup in *. unfold sms in Hsup at 1, HR |- *.
    rewrite (lookup_map schema_of) in *. fold (sms ms) in *.
    unfold disp_of in HR. cbn [base_of] in HR. rewrite Ha1 in HR. cbn [deref] in HR. rewrite Nat.eqb_refl in HR.
    unfold push, set_stack, upd in HR. cbn [m_root m_stack m_log set_not_empty with_base base_of] in HR.
    rewrite Ha1 in HR.
    set (p0 := PObj b k0 v0 ms ig ign cb) in *.
    set (p1 := PObj (mkB (Some g) (b_set b) false) k0 v0 ms ig ign cb) in *.
    assert (Hg1 : get pi (put pi p1 T) = Some p1) by (eapply get_put_same; eauto; simpl; auto).
    assert (Hle1 : le_p g p0 p1) by (constructor; auto with le; right; auto).
    destruct (lookup (SStr k) ms) as [i|] eqn:Hi.
    + destruct (lookup_nth _ _ Hi) as [[m c] Hn]. rewrite (sms_nth _ _ Hn) in *.
      cbn [bind] in HR.
      assert (Hc : child p1 (Mem i) = Some c) by (simpl; rewrite Hn; auto).
      assert (Hge : get (pi ++ [Mem i])%list (put pi p1 T) = Some c) by (erewrite get_child_at; eauto).
      assert (Hac : att g c) by (apply (att_nth _ _ _ Ha3 Hn)).
      assert (Hrc : rdy false c) by (apply (rdy_ms_nth false _ _ H3 Hn)).
      unfold sup_value in Hsup.
      destruct (embedded (schema_of c) v) as [[[[[st t] ms0] cb0] x]|] eqn:He.
      * destruct (embedded_inv _ _ He) as [Hs ->]. destruct (schema_uni_inv _ Hs) as (ub & u & cur & ms' & uig & -> & ->).
        cbn [toks app] in HR.
        pose proof (@pselect_rel ps x (put pi p1 T) (pi ++ [Mem i])%list (pi :: sigma) l ub st u t "" cur ms' uig cb0
                      HB Hsup Hge Hac Hrc) as H.
        rewrite <- HR in H.
        destruct (pselect P _ t (sms ms') x l) as [l1 [e|w]]; cbn [andthen open_rel] in *; auto.
        destruct H as (c' & st' & Hw & Hle & H).
        erewrite put_child_at in H by eauto.
        erewrite put_put in H by (eauto; simpl; auto).
        exists (set_child p1 (Mem i) c'), (st' ++ [pi ++ [Mem i]])%list. repeat split.
        3:{ rewrite H. rewrite <- app_assoc. reflexivity. }
        -- unfold p1. cbn [set_child]. rewrite view_open_obj by auto. cbn [b_empty].
           rewrite vms_set_mem, H2, Hw. reflexivity.
        -- eapply le_trans; [exact Hle1|]. eapply le_set_child; eauto.
      * apply andb_prop in Hsup. destruct Hsup as [Hs1 Hs2].
        pose proof (@value_run P g v (put pi p1 T) (pi ++ [Mem i])%list (pi :: sigma) l c Hs1 Hge Hac Hrc) as Hval.
        rewrite run_app in HR.
        destruct (den P v (schema_of c) l) as [l1 [x|w]]; cbn [andthen val_rel] in *.
        { simpl. rewrite HR. apply throws_bind; auto. }
        destruct Hval as (c' & Hw & Hle & Hrd & Hval). change (list step) with path in HR. rewrite Hval in HR. clear Hval.
        unfold p1 in HR at 1. erewrite child_done_obj in HR by eauto.
        fold p1 in HR. set (p3 := set_child p1 (Mem i) c') in *.
        assert (Hk3 : same_kind p0 p3) by (simpl; auto).
        erewrite put_put in HR by (eauto; simpl; auto).
        cbn [bind] in HR.
        assert (Hg3 : get pi (put pi p3 T) = Some p3) by (eapply get_put_same; eauto).
        assert (Hle3 : le_p g p0 p3) by (eapply le_trans; [exact Hle1|]; eapply le_set_child; eauto).
        assert (Hb3 : open_ok p3 false (set_nth i w kids) vals).
        { split.
          - simpl. rewrite vms_set_mem, H2, Hw. repeat split; auto using rdy_ms_set_mem.
          - unfold p3, p1. cbn [set_child]. rewrite view_open_obj by auto. cbn [b_empty].
            rewrite vms_set_mem, H2, Hw. reflexivity. }
        assert (Hat3 : att g p3) by (eapply le_att; [exact Hle3|simpl; auto]).
        assert (Hs3 : schema_of p3 = SObj k0 (sms ms) ign cb) by (symmetry; apply (le_schema Hle3)).
        apply open_rel_put with (p1 := p3); auto. rewrite HR.
        pose proof (HB (put pi p3 T) pi sigma l1 p3 false (set_nth i w kids) vals) as Hm.
        rewrite Hs3 in Hm. apply Hm; auto.
    + destruct ign.
      * apply andb_prop in Hsup. destruct Hsup as [Hs1 Hs2]. cbn [bind] in HR.
        rewrite run_app in HR.
        assert (Hge : get (pi ++ [Ign])%list (put pi p1 T) = Some (PIgn ig)) by (erewrite get_child_at; eauto; reflexivity).
        destruct (@ign_run P g v Hs1 _ _ (pi :: sigma) l _ Hge Ha2 H4) as (i' & Hi1 & Hi2 & _ & Hi3).
        change (list step) with path in HR. rewrite Hi3 in HR. clear Hi3. unfold p1 in HR at 1.
        erewrite child_done_obj in HR;
          [|exact Hg1|exists (PIgn ig); split; [reflexivity|constructor; auto]].
        fold p1 in HR. set (p3 := set_child p1 Ign (PIgn i')) in *.
        erewrite put_put in HR by (eauto; simpl; auto).
        cbn [bind] in HR.
        assert (Hg3 : get pi (put pi p3 T) = Some p3) by (eapply get_put_same; eauto; simpl; auto).
        assert (Hle3 : le_p g p0 p3).
        { eapply le_trans; [exact Hle1|]. eapply le_set_child; [reflexivity|constructor; auto]. }
        assert (Hat3 : att g p3) by (eapply le_att; [exact Hle3|simpl; auto]).
        assert (Hs3 : schema_of p3 = SObj k0 (sms ms) true cb) by (symmetry; apply (le_schema Hle3)).
        apply open_rel_put with (p1 := p3); auto. rewrite HR.
        pose proof (HB (put pi p3 T) pi sigma l p3 false kids vals) as Hm.
        rewrite Hs3 in Hm. apply Hm; auto. split; [simpl; auto|].
        unfold p3, p1. cbn [set_child]. rewrite view_open_obj by auto. subst kids. reflexivity.
      * simpl. rewrite HR. apply throw_at; auto.
  - (* Union *)
    destruct Hb as (H1 & H2 & H3). unfold upd in HR. fold (sms ms) in *.
    destruct (String.eqb tm "") eqn:Htm.
    { simpl. rewrite HR. apply throw_at; auto. }
    destruct (String.eqb k tm) eqn:Hk.
    2:{ simpl. rewrite HR. apply throw_at; auto. }
    cbn [bind] in HR. destruct v as [|x|js|ps']; try discriminate.
    + cbn [toks app] in HR. rewrite HR. apply pselect_rel; auto.
    + cbn [toks app] in HR. erewrite run_node in HR by eauto. cbn [on_p on_uni] in HR.
      simpl. rewrite HR. apply throw_at; auto.
  - simpl in Hb. rewrite Hb in HR. simpl. rewrite HR. apply throw_at; auto.
Qed.
End Body.

Lemma stop_here_rel : Stop [] stop_here (fun _ => true).
Proof.
  intros T pi sigma l p empty kids vals _ Hg Ha [Hb Hv]. exists p, [].
  cbn [run app]. rewrite put_same by auto. auto with le.
Qed.

Lemma stop_key_rel k : Stop [TKey k] (stop_key k) (fun _ => true).
Proof.
  intros T pi sigma l p empty kids vals _ Hg Ha [Hb Hv].
  rewrite run_one. erewrite disp_node by eauto.
  destruct p; cbn [schema_of on_p on_val on_arr on_map on_obj on_uni on_ign stop_key].
  - eexists; split; [reflexivity|auto].
  - eexists; split; [reflexivity|auto].
  - destruct Hb as (H1 & H2 & H3). destruct Ha as [Ha1 Ha2].
    assert (Hbs : b_set b = false) by (simpl in Hv; unfold opened in Hv; congruence).
    assert (Hkids : kids = []) by (simpl in Hv; unfold opened in Hv; congruence).
    rewrite Ha1. cbn [deref]. rewrite Nat.eqb_refl.
    unfold push, set_stack, upd. cbn [bind m_root m_stack m_log set_not_empty with_base base_of].
    eexists _, [_]. split; [|split; [|reflexivity]].
    + rewrite view_open_map by auto. subst kids; reflexivity.
    + constructor; [left; auto|auto with le].
  - assert (Hbs : b_set b = false) by (eapply open_obj; eauto).
    destruct Hb as (H1 & H2 & H3 & H4 & H5). destruct Ha as (Ha1 & Ha2 & Ha3).
    fold (sms ms). unfold on_member. rewrite (index_of_lookup (SStr k) (sms ms)). unfold sms.
    rewrite (lookup_map schema_of). fold (sms ms).
    unfold disp_of. cbn [base_of]. rewrite Ha1. cbn [deref]. rewrite Nat.eqb_refl.
    unfold push, set_stack, upd. cbn [m_root m_stack m_log set_not_empty with_base base_of].
    rewrite Ha1.
    destruct (lookup (SStr k) ms) as [i|].
    + eexists _, [_]. split; [|split; [|reflexivity]].
      * rewrite view_open_obj by auto. subst kids; reflexivity.
      * constructor; auto with le; right; auto.
    + destruct ign; [|eexists; split; [reflexivity|auto]].
      eexists _, [_]. split; [|split; [|reflexivity]].
      * rewrite view_open_obj by auto. subst kids; reflexivity.
      * constructor; auto with le; right; auto.
  - destruct Hb as (H1 & H2 & H3). unfold upd.
    destruct (String.eqb tm ""); [eexists; split; [reflexivity|auto]|].
    destruct (String.eqb k tm); [|eexists; split; [reflexivity|auto]].
    eexists _, []. split; [|split; [|cbn [app]; rewrite (put_same _ _ Hg); reflexivity]]; auto with le.
  - simpl in Hb. rewrite Hb. eexists; split; [reflexivity|auto].
Qed.

(** ** Ignored beginnings *)
Lemma ign_done_arr js : forallb no_null js = true -> forall T pi sigma l i,
  get pi T = Some (PIgn i) -> ig_st i <> [] ->
  run E g (flat_map toks js) (mkS T (pi :: sigma) l) = ROk (mkS T (pi :: sigma) l).
Proof.
  induction js as [|j js IH]; intros Hn T pi sigma l i Hg Hi; cbn [forallb flat_map] in *; auto.
  apply andb_prop in Hn. destruct Hn as [H1 H2].
  rewrite run_app. rewrite (@ign_inner P g j H1 _ _ _ _ _ Hg Hi). cbn [bind]. eauto.
Qed.

Lemma ign_done_obj ps : forallb (fun kv => no_null (snd kv)) ps = true -> forall T pi sigma l i,
  get pi T = Some (PIgn i) -> ig_st i <> [] -> (exists r, ig_st i = StObj :: r) ->
  run E g (member_toks ps) (mkS T (pi :: sigma) l) = ROk (mkS T (pi :: sigma) l).
Proof.
  induction ps as [|[k j] ps IH]; intros Hn T pi sigma l i Hg Hi Ho; cbn [forallb] in *; auto.
  apply andb_prop in Hn. destruct Hn as [H1 H2]. cbn [snd] in H1.
  rewrite <- (app_nil_r (member_toks _)), member_toks_cons, app_nil_r.
  erewrite run_node by eauto. cbn [on_p on_ign]. destruct Ho as [r Ho]. rewrite Ho. cbn [bind].
  rewrite run_app. rewrite (@ign_inner P g j H1 _ _ _ _ _ Hg Hi). cbn [bind]. eauto.
Qed.

Lemma ign_part q : part_no_null q = true -> forall T pi sigma l i,
  get pi T = Some (PIgn i) ->
  exists st, run E g (part_toks q) (mkS T (pi :: sigma) l) =
             ROk (mkS (put pi (PIgn (mkI (ig_b i) st)) T) (pi :: sigma) l).
Proof.
  assert (Ha : forall T pi sigma l i js, get pi T = Some (PIgn i) -> forallb no_null js = true ->
    forall ts, run E g (TArrStart :: flat_map toks js ++ ts) (mkS T (pi :: sigma) l) =
               run E g ts (mkS (put pi (PIgn (mkI (ig_b i) (StArr :: ig_st i))) T) (pi :: sigma) l)).
  { intros T pi sigma l i js Hg Hn ts. erewrite run_node by eauto. cbn [on_p on_ign].
    unfold upd; cbn [m_root m_stack m_log bind]. rewrite run_app.
    erewrite ign_done_arr; [reflexivity|auto|eapply get_put_same; eauto; simpl; auto|simpl; discriminate]. }
  assert (Ho : forall T pi sigma l i ps, get pi T = Some (PIgn i) ->
    forallb (fun kv => no_null (snd kv)) ps = true ->
    forall ts, run E g (TMapStart :: member_toks ps ++ ts) (mkS T (pi :: sigma) l) =
               run E g ts (mkS (put pi (PIgn (mkI (ig_b i) (StObj :: ig_st i))) T) (pi :: sigma) l)).
  { intros T pi sigma l i ps Hg Hn ts. erewrite run_node by eauto. cbn [on_p on_ign].
    unfold upd; cbn [m_root m_stack m_log bind]. rewrite run_app.
    erewrite ign_done_obj; [reflexivity|auto|eapply get_put_same; eauto; simpl; auto|simpl; discriminate|simpl; eauto]. }
  induction q as [d|d q IH|d|d k|d k q IH]; intros Hn T pi sigma l i Hg; cbn [part_no_null part_toks] in *.
  - rewrite <- (app_nil_r (flat_map _ _)). rewrite (Ha _ _ _ _ _ _ Hg Hn). eexists; reflexivity.
  - apply andb_prop in Hn. destruct Hn as [H1 H2]. rewrite (Ha _ _ _ _ _ _ Hg H1).
    set (i1 := mkI _ _).
    assert (Hg1 : get pi (put pi (PIgn i1) T) = Some (PIgn i1)) by (eapply get_put_same; eauto; simpl; auto).
    destruct (IH H2 _ _ sigma l _ Hg1) as [st Hst]. exists st. rewrite Hst.
    erewrite put_put by (eauto; simpl; auto). reflexivity.
  - rewrite <- (app_nil_r (member_toks _)). rewrite (Ho _ _ _ _ _ _ Hg Hn). eexists; reflexivity.
  - rewrite (Ho _ _ _ _ _ _ Hg Hn). rewrite run_one.
    set (i1 := mkI _ _).
    assert (Hg1 : get pi (put pi (PIgn i1) T) = Some (PIgn i1)) by (eapply get_put_same; eauto; simpl; auto).
    erewrite disp_node by eauto. cbn [on_p on_ign i1 ig_st]. eexists; reflexivity.
  - apply andb_prop in Hn. destruct Hn as [H1 H2]. rewrite (Ho _ _ _ _ _ _ Hg H1).
    set (i1 := mkI _ _).
    assert (Hg1 : get pi (put pi (PIgn i1) T) = Some (PIgn i1)) by (eapply get_put_same; eauto; simpl; auto).
    erewrite run_node by eauto. cbn [on_p on_ign i1 ig_st bind]. fold i1.
    destruct (IH H2 _ _ sigma l _ Hg1) as [st Hst]. exists st. rewrite Hst.
    erewrite put_put by (eauto; simpl; auto). reflexivity.
Qed.

(** ** A beginning as the value of a member *)
Definition PV (q : beginning) : Prop := forall T pi sigma l p,
  psupported q (schema_of p) = true -> get pi T = Some p -> att g p -> rdy false p ->
  open_rel (run E g (part_toks q) (mkS T (pi :: sigma) l)) (pden P q (schema_of p) (view_of p) l)
           pi T sigma p.

Lemma pden_w q s w1 w2 l : is_ign s = false -> pden P q s w1 l = pden P q s w2 l.
Proof. destruct s; try discriminate; intros _; destruct q; reflexivity. Qed.

Lemma pden_ign q w l : pden P q SIgn w l = (l, inr w).
Proof. destruct q; reflexivity. Qed.

Lemma vms_nth_view ms i m c : nth_error ms i = Some (m, c) -> nth_error (vms ms) i = Some (view_of c).
Proof. intros H. apply (vms_nth _ _ H). Qed.

Lemma part_first q : exists ts, part_toks q = (if is_arr q then TArrStart else TMapStart) :: ts.
Proof. destruct q; simpl; eauto. Qed.

Lemma stop_in_rel k q : PV q ->
  Stop (TKey k :: part_toks q) (stop_in k (is_arr q) (pden P q)) (psup_in k q (psupported q)).
Proof.
  intros HV T pi sigma l p empty kids vals Hsup Hg Ha [Hb Hv].
  match goal with |- open_rel ?r _ _ _ _ _ => set (R := r) end.
  assert (HR : R = bind (on_p P g p pi (TKey k) (mkS T (pi :: sigma) l)) (run E g (part_toks q)))
    by (unfold R; erewrite run_node by eauto; reflexivity).
  clearbody R.
  destruct p; cbn [schema_of on_p on_val on_arr on_map on_obj on_uni on_ign stop_in psup_in] in *.
  - simpl. rewrite HR. apply throw_at; auto.
  - simpl. rewrite HR. apply throw_at; auto.
  - destruct Hb as (H1 & H2 & H3). destruct Ha as [Ha1 Ha2].
    assert (Hbs : b_set b = false) by (simpl in Hv; unfold opened in Hv; congruence).
    assert (Hkids : kids = []) by (simpl in Hv; unfold opened in Hv; congruence).
    rewrite Ha1 in HR. cbn [deref] in HR. rewrite Nat.eqb_refl in HR.
    unfold push, set_stack, upd in HR. cbn [bind m_root m_stack m_log set_not_empty with_base base_of] in HR.
    set (p1 := PMap (mkB (b_disp b) (b_set b) false) store k vals0 p ecb cb) in *.
    assert (Hg1 : get pi (put pi p1 T) = Some p1) by (eapply get_put_same; eauto; simpl; auto).
    assert (Hge : get (pi ++ [Elem])%list (put pi p1 T) = Some p) by (erewrite get_child_at; eauto; reflexivity).
    pose proof (HV (put pi p1 T) (pi ++ [Elem])%list (pi :: sigma) l p Hsup Hge Ha2 H3) as H.
    change (list step) with path in HR. rewrite <- HR in H.
    assert (Hx : andthen (pden P q (schema_of p) (fresh (schema_of p)) l)
                   (fun _ l => (l, inr (opened false kids)) : out) =
                 andthen (pden P q (schema_of p) (view_of p) l)
                   (fun _ l => (l, inr (opened false kids)))).
    { destruct (is_ign (schema_of p)) eqn:Hi; [|erewrite pden_w; eauto].
      destruct (schema_of p); try discriminate. rewrite !pden_ign. reflexivity. }
    rewrite Hx.
    destruct (pden P q (schema_of p) (view_of p) l) as [l1 [e|w]]; cbn [andthen open_rel] in *; auto.
    destruct H as (e' & st' & Hw & Hle & H).
    erewrite put_child_at in H by (eauto; reflexivity). unfold p1 in H at 1. cbn [set_child] in H.
    erewrite put_put in H by (eauto; simpl; auto).
    eexists (PMap _ store k vals0 e' ecb cb), (st' ++ [pi ++ [Elem]])%list.
    split; [|split; [|rewrite H, <- app_assoc; reflexivity]].
    + rewrite view_open_map by auto. subst kids; reflexivity.
    + constructor; [left; auto|auto].
  - assert (Hbs : b_set b = false) by (eapply open_obj; eauto).
    destruct Hb as (H1 & H2 & H3 & H4 & H5). destruct Ha as (Ha1 & Ha2 & Ha3). fold (att_ms g) in Ha3.
    fold (sms ms) in *. unfold on_member in HR. rewrite index_of_lookup in *. unfold sms in Hsup at 1, HR |- *.
    rewrite (lookup_map schema_of) in *. fold (sms ms) in *.
    unfold disp_of in HR. cbn [base_of] in HR. rewrite Ha1 in HR. cbn [deref] in HR. rewrite Nat.eqb_refl in HR.
    unfold push, set_stack, upd in HR. cbn [m_root m_stack m_log set_not_empty with_base base_of] in HR.
    rewrite Ha1 in HR.
    set (p0 := PObj b k0 v ms ig ign cb) in *.
    set (p1 := PObj (mkB (Some g) (b_set b) false) k0 v ms ig ign cb) in *.
    assert (Hg1 : get pi (put pi p1 T) = Some p1) by (eapply get_put_same; eauto; simpl; auto).
    assert (Hle1 : le_p g p0 p1) by (constructor; auto with le; right; auto).
    destruct (lookup (SStr k) ms) as [i|] eqn:Hi.
    + destruct (lookup_nth _ _ Hi) as [[m c] Hn]. rewrite (sms_nth _ _ Hn) in *.
      cbn [bind] in HR.
      assert (Hc : child p1 (Mem i) = Some c) by (simpl; rewrite Hn; auto).
      assert (Hge : get (pi ++ [Mem i])%list (put pi p1 T) = Some c) by (erewrite get_child_at; eauto).
      assert (Hac : att g c) by (apply (att_nth _ _ _ Ha3 Hn)).
      assert (Hrc : rdy false c) by (apply (rdy_ms_nth false _ _ H3 Hn)).
      rewrite <- H2. rewrite (vms_nth_view _ _ Hn).
      pose proof (HV (put pi p1 T) (pi ++ [Mem i])%list (pi :: sigma) l c Hsup Hge Hac Hrc) as H.
      change (list step) with path in HR. rewrite <- HR in H.
      destruct (pden P q (schema_of c) (view_of c) l) as [l1 [e|w]]; cbn [andthen open_rel] in *; auto.
      destruct H as (c' & st' & Hw & Hle & H).
      erewrite put_child_at in H by eauto.
      erewrite put_put in H by (eauto; simpl; auto).
      exists (set_child p1 (Mem i) c'), (st' ++ [pi ++ [Mem i]])%list.
      split; [|split; [|rewrite H, <- app_assoc; reflexivity]].
      * unfold p1. cbn [set_child]. rewrite view_open_obj by auto. cbn [b_empty].
        rewrite vms_set_mem, Hw. reflexivity.
      * eapply le_trans; [exact Hle1|]. eapply le_set_child; eauto.
    + destruct ign; [|simpl; rewrite HR; apply throw_at; auto].
      cbn [bind] in HR.
      assert (Hge : get (pi ++ [Ign])%list (put pi p1 T) = Some (PIgn ig)) by (erewrite get_child_at; eauto; reflexivity).
      destruct (@ign_part q Hsup _ _ (pi :: sigma) l _ Hge) as [st Hst].
      change (list step) with path in HR. rewrite Hst in HR.
      erewrite put_child_at in HR by (eauto; reflexivity).
      erewrite put_put in HR by (eauto; simpl; auto).
      exists (set_child p1 Ign (PIgn (mkI (ig_b ig) st))), [(pi ++ [Ign])%list].
      split; [|split; [|rewrite HR; reflexivity]].
      * unfold p1. cbn [set_child]. rewrite view_open_obj by auto. subst kids. reflexivity.
      * eapply le_trans; [exact Hle1|]. eapply le_set_child; [reflexivity|]. constructor. left; reflexivity.
  - destruct Hb as (H1 & H2 & H3). unfold upd in HR. fold (sms ms) in *.
    destruct (String.eqb tm "") eqn:Htm.
    { simpl. rewrite HR. apply throw_at; auto. }
    destruct (String.eqb k tm) eqn:Hk.
    2:{ simpl. rewrite HR. apply throw_at; auto. }
    cbn [bind] in HR. destruct (part_first q) as [ts Hts]. rewrite Hts, Hsup in HR. rewrite Hsup.
    erewrite run_node in HR by eauto. cbn [on_p on_uni] in HR.
    simpl. rewrite HR. apply throw_at; auto.
  - simpl in Hb. rewrite Hb in HR. simpl. rewrite HR. apply throw_at; auto.
Qed.

(** ** Elements of an open array *)
Definition AStop (ts : list token) (stop : bool -> list event -> out) (e0 : schema) : Prop :=
  forall T pi sigma l b st vals0 e cb em vals,
  let p := PArr b true st vals0 e cb in
  schema_of e = e0 -> get pi T = Some p -> arr_ok g p em vals -> b_set b = false ->
  open_rel (run E g ts (mkS T (pi :: sigma) l)) (stop em l) pi T sigma p.

Lemma pelems_cons stop st e j js em l :
  is_null j = false ->
  pelems P stop st e (j :: js) em l =
  andthen (den P j e l) (fun w l =>
      if st then
        match v_val w with
        | Some v => andthen (l, storing P v) (fun _ l => pelems P stop st e js false l)
        | None => err l msg_unset
        end
      else pelems P stop st e js false l).
Proof. destruct j; simpl; intros; try discriminate; reflexivity. Qed.

Lemma pelems_rel ts stop e0 js : AStop ts stop e0 -> forall T pi sigma l b st vals0 e cb em vals,
  let p := PArr b true st vals0 e cb in
  schema_of e = e0 ->
  negb (is_ign (schema_of e)) = true ->
  forallb (fun j => if is_null j then is_value (schema_of e) else supported j (schema_of e)) js = true ->
  get pi T = Some p -> arr_ok g p em vals -> b_set b = false ->
  open_rel (run E g (flat_map toks js ++ ts) (mkS T (pi :: sigma) l))
          (pelems P stop st (schema_of e) js em l) pi T sigma p.
Proof.
  intros HS.
  induction js as [|j js IH]; intros T pi sigma l b st vals0 e cb em vals p He0 Hign Hsup Hg Hok Hbs.
  - cbn [flat_map app pelems]. eapply HS; eauto.
  - cbn [forallb] in Hsup. apply andb_prop in Hsup. destruct Hsup as [Hs1 Hs2].
    apply negb_true_iff in Hign.
    cbn [flat_map]. rewrite <- app_assoc.
    pose proof Hok as (H1 & H2 & _ & H3 & H4 & H5).
    destruct (is_null j) eqn:Hnull.
    { (* null: only for Value *)
      destruct j; try discriminate. destruct e as [eb et ev ecb| | | | |]; try discriminate.
      cbn [toks app pelems]. 
      match goal with |- open_rel ?r _ _ _ _ _ => set (R := r) end.
      assert (HR : R = bind (on_p P g p pi TNull (mkS T (pi :: sigma) l)) (run E g (flat_map toks js ++ ts)))
        by (unfold R; erewrite run_node by eauto; reflexivity).
      clearbody R. unfold p at 1 in HR. cbn [on_p on_arr] in HR.
      assert (Hge : get (pi ++ [Elem])%list T = Some (PVal eb et ev ecb)) by (erewrite get_child_at; eauto; reflexivity).
      erewrite on_node in HR by eauto. cbn [on_p on_val] in HR. unfold on_null, disp_of in HR.
      cbn [base_of] in HR. rewrite H5 in HR. cbn [pop_if_disp bind reset] in HR.
      unfold upd in HR; cbn [m_root m_stack m_log] in HR. 
      erewrite put_child_at in HR by (eauto; reflexivity).
      unfold p in HR. cbn [set_child] in HR.
      set (p1 := PArr b true st vals0 (PVal (reset_base eb) et ev ecb) cb) in *.
      apply open_rel_put with (p1 := p1); auto. { constructor; auto with le. constructor. left; auto. }
      rewrite HR. apply (IH _ _ _ _ b st vals0 (PVal (reset_base eb) et ev ecb) cb em vals); auto.
      eapply get_put_same; eauto; simpl; auto. }
    rewrite pelems_cons by auto.
    match goal with |- open_rel ?r _ _ _ _ _ => set (R := r) end.
    (* once the element is complete *)
    assert (Hfin : forall l1 e1 T1, 
       get pi T1 = Some (PArr (mkB (Some g) (b_set b) false) true st vals0 e1 cb) ->
       (exists q, le_p g p q /\ T1 = put pi q T) ->
       le_p g e e1 -> rdy false e1 ->
       match e1 with PVal b _ _ _ => b_disp b = None | _ => True end ->
       R = bind (call_ (CChild pi) (mkS T1 (pi :: sigma) l1)) (run E g (flat_map toks js ++ ts)) ->
       open_rel R
         (if st
          then match v_val (view_of e1) with
               | Some v => andthen (l1, storing P v) (fun _ l1 => pelems P stop st (schema_of e) js false l1)
               | None => err l1 msg_unset
               end
          else pelems P stop st (schema_of e) js false l1) pi T sigma p).
    { intros l1 e1 T1 Hg1 (q & Hq & HT1) Hle Hrd Hd HR.
      destruct (@child_done_arr P g T1 pi sigma l1 _ true st vals0 e1 cb vals Hg1 H3)
        as [(Ha & x & Hb & Hc)|(vals1 & e2 & Ha & Hb & Hc & Hdd & He)].
      - subst st. destruct (v_val (view_of e1)) as [v|]; [rewrite Hb|subst x]; simpl; rewrite HR; apply throws_bind; auto.
      - rewrite He in HR. cbn [bind] in HR. 
        set (p1 := PArr (mkB (Some g) (b_set b) false) true st vals1 e2 cb) in *.
        assert (Hk1 : same_kind p q) by apply (le_kind Hq).
        rewrite HT1 in HR. erewrite put_put in HR by (eauto; simpl; auto).
        apply open_rel_put with (p1 := p1); auto.
        { constructor; [right; auto|eapply le_trans; eauto]. }
        assert (Hsc : schema_of e2 = schema_of e).
        { symmetry. apply (le_schema (g := g)). eapply le_trans; eauto. }
        rewrite HR, <- Hsc.
        assert (Hd2 : match e2 with PVal b _ _ _ => b_disp b = None | _ => True end).
        { assert (Hkk := le_kind Hb). destruct e1, e2; simpl in Hkk; try tauto; auto.
          unfold disp_of in Hdd; simpl in *. congruence. }
        destruct st.
        + destruct (Ha eq_refl) as (v & Hv1 & Hv3 & Hv2). rewrite Hv1, Hv3. cbn [andthen]. subst vals1.
          apply (IH _ _ _ _ (mkB (Some g) (b_set b) false) true (vals ++ [v])%list e2 cb false (vals ++ [v])%list); auto.
          * congruence.
          * rewrite Hsc, Hign; auto.
          * rewrite Hsc; auto.
          * eapply get_put_same; eauto; simpl; auto.
          * simpl. repeat split; auto.
        + apply (IH _ _ _ _ (mkB (Some g) (b_set b) false) false vals1 e2 cb false vals); auto.
          * congruence.
          * rewrite Hsc, Hign; auto.
          * rewrite Hsc; auto.
          * eapply get_put_same; eauto; simpl; auto.
          * simpl. repeat split; auto. discriminate. }
    assert (Hge : get (pi ++ [Elem])%list T = Some e) by (erewrite get_child_at; eauto; reflexivity).
    assert (Hcomp : forall t ts0, toks j = t :: ts0 -> (t = TMapStart \/ t = TArrStart) ->
       open_rel R
         (andthen (den P j (schema_of e) l) (fun w l =>
          if st
          then match v_val w with
               | Some v => andthen (l, storing P v) (fun _ l => pelems P stop st (schema_of e) js false l)
               | None => err l msg_unset
               end
          else pelems P stop st (schema_of e) js false l)) pi T sigma p).
    { intros t ts0 Ht Htt.
      set (ed := set_disp (Some g) e).
      set (p1 := PArr (mkB (Some g) (b_set b) false) true st vals0 ed cb).
      assert (HR : R = bind (run E g (toks j) (mkS (put pi p1 T) ((pi ++ [Elem])%list :: pi :: sigma) l))
                            (run E g (flat_map toks js ++ ts))).
      { unfold R. rewrite run_app. f_equal. rewrite Ht. 
        assert (Hg1 : get pi (put pi p1 T) = Some p1) by (eapply get_put_same; eauto; simpl; auto).
        assert (Hge1 : get (pi ++ [Elem])%list (put pi p1 T) = Some ed) by (erewrite get_child_at; eauto; reflexivity).
        erewrite run_node by eauto. erewrite run_node by eauto. f_equal.
        rewrite <- on_node with (1 := Hge1).
        unfold p at 1. cbn [on_p on_arr].
        assert (Ha : arr_enter g call_ pi p t (mkS T (pi :: sigma) l) =
                     call_ (COn (pi ++ [Elem])%list t) (mkS (put pi p1 T) ((pi ++ [Elem])%list :: pi :: sigma) l)).
        { unfold arr_enter, p. rewrite H1. cbn [deref]. rewrite Nat.eqb_refl.
          unfold push, set_stack, upd. cbn [m_root m_stack m_log set_not_empty with_base base_of].
          rewrite H1. reflexivity. }
        destruct Htt; subst t; exact Ha. }
      clearbody R.
      assert (Hg1 : get pi (put pi p1 T) = Some p1) by (eapply get_put_same; eauto; simpl; auto).
      assert (Hge1 : get (pi ++ [Elem])%list (put pi p1 T) = Some ed) by (erewrite get_child_at; eauto; reflexivity).
      assert (Hs0 : schema_of ed = schema_of e) by (symmetry; apply (le_schema (le_set_disp g e))).
      pose proof (@value_run P g j (put pi p1 T) (pi ++ [Elem])%list (pi :: sigma) l ed) as HV'.
      rewrite Hs0 in HV'.
      specialize (HV' Hs1 Hge1 (att_set_disp g e) (@rdy_set_disp g e _ H4)).
      destruct (den P j (schema_of e) l) as [l1 [x|w]] eqn:Hden; cbn [andthen val_rel] in *.
      { rewrite HR. apply throws_bind; auto. }
      destruct HV' as (e1 & Hw & Hle & Hrd & HV'). change (list step) with path in HR. rewrite HV' in HR. clear HV'.
      rewrite cpop_cons in HR. erewrite put_child_at in HR by (eauto; reflexivity).
      unfold p1 in HR. cbn [set_child] in HR. fold p1 in HR.
      erewrite put_put in HR by (eauto; simpl; auto).
      subst w.
      assert (Hle' : le_p g e e1) by (eapply le_trans; [apply le_set_disp|eauto]).
      apply (Hfin l1 e1 (put pi (PArr (mkB (Some g) (b_set b) false) true st vals0 e1 cb) T)); auto.
      - eapply get_put_same; eauto; simpl; auto.
      - eexists; split; [|reflexivity]. constructor; auto. right; auto.
      - assert (Hsv : is_value (schema_of e) = false).
        { destruct (schema_of e); auto. destruct j; simpl in *; try discriminate;
          destruct Htt; congruence. }
        rewrite (le_schema Hle') in Hsv. destruct e1; auto. discriminate. }
    destruct j as [|x|js'|ps']; try discriminate.
    2:{ eapply Hcomp; [reflexivity|auto]. }
    2:{ eapply Hcomp; [reflexivity|auto]. }
    (* scalar *)
    clear Hcomp.
    assert (HR : R = bind (on_p P g p pi (TSc x) (mkS T (pi :: sigma) l)) (run E g (flat_map toks js ++ ts)))
      by (unfold R; cbn [toks app]; erewrite run_node by eauto; reflexivity).
    unfold p at 1 in HR. cbn [on_p on_arr] in HR. clearbody R.
    pose proof (@scalar_elem P g T (pi ++ [Elem])%list (pi :: sigma) l x e Hge H4 Hs1 Hign H5) as Hsc.
    destruct (den P (JSc x) (schema_of e) l) as [l1 [m|w]]; cbn [andthen].
    { simpl. rewrite HR. do 2 apply throws_bind; auto. }
    destruct Hsc as (d & He & Hw & Hsc). rewrite Hsc in HR. clear Hsc. cbn [bind] in HR.
    erewrite put_child_at in HR by (eauto; reflexivity). unfold p in HR at 1 2. cbn [set_child] in HR.
    unfold at_node at 1 in HR. cbn [m_root] in HR.
    set (e1 := PVal (mkB None true false) (ty_of x) (VSc x) (match e with PVal _ _ _ cb => cb | _ => None end)) in *.
    set (p1 := PArr b true st vals0 e1 cb) in *.
    erewrite get_put_same in HR; [|exact Hg|simpl; auto].
    unfold upd in HR. cbn [m_root m_stack m_log set_not_empty with_base base_of p1] in HR. rewrite H1 in HR.
    erewrite put_put in HR by (eauto; simpl; auto).
    replace w with (view_of e1) by auto.
    assert (Hle : le_p g e e1).
    { destruct e; try discriminate. inversion He; subst. simpl in H5. unfold e1. constructor. left. auto. }
    apply (Hfin l1 e1 (put pi (PArr (mkB (Some g) (b_set b) false) true st vals0 e1 cb) T)); auto.
    + eapply get_put_same; eauto; simpl; auto.
    + eexists; split; [|reflexivity]. constructor; auto. right; auto.
    + simpl; auto.
    + simpl; auto.
Qed.
Lemma astop_nil e0 : AStop [] (fun empty l => (l, inr (opened empty []))) e0.
Proof.
  intros T pi sigma l b st vals0 e cb em vals p He Hg Hok Hbs. exists p, [].
  cbn [run app]. rewrite put_same by auto. split; [|auto with le].
  unfold p. rewrite view_open_arr by auto. destruct Hok as (_ & -> & _). reflexivity.
Qed.

Lemma astop_in q e0 : PV q -> psupported q e0 = true -> is_ign e0 = false ->
  AStop (part_toks q) (fun _ l => andthen (pden P q e0 (fresh e0) l)
                                          (fun _ l => (l, inr (opened false [])))) e0.
Proof.
  intros HV Hs Hign T pi sigma l b st vals0 e cb em vals p He Hg Hok Hbs. subst e0.
  destruct Hok as (H1 & H2 & _ & H3 & H4 & H5).
  set (ed := set_disp (Some g) e).
  set (p1 := PArr (mkB (Some g) (b_set b) false) true st vals0 ed cb).
  assert (Hg1 : get pi (put pi p1 T) = Some p1) by (eapply get_put_same; eauto; simpl; auto).
  assert (Hge1 : get (pi ++ [Elem])%list (put pi p1 T) = Some ed) by (erewrite get_child_at; eauto; reflexivity).
  assert (Hs0 : schema_of ed = schema_of e) by (symmetry; apply (le_schema (le_set_disp g e))).
  match goal with |- open_rel ?r _ _ _ _ _ => set (R := r) end.
  assert (HR : R = run E g (part_toks q) (mkS (put pi p1 T) ((pi ++ [Elem])%list :: pi :: sigma) l)).
  { unfold R. destruct (part_first q) as [ts Hts]. rewrite Hts.
    erewrite run_node by eauto. erewrite run_node by eauto. f_equal.
    rewrite <- on_node with (1 := Hge1).
    unfold p at 1. cbn [on_p on_arr].
    assert (Ha : forall t, arr_enter g call_ pi p t (mkS T (pi :: sigma) l) =
                 call_ (COn (pi ++ [Elem])%list t) (mkS (put pi p1 T) ((pi ++ [Elem])%list :: pi :: sigma) l)).
    { intros t. unfold arr_enter, p. rewrite H1. cbn [deref]. rewrite Nat.eqb_refl.
      unfold push, set_stack, upd. cbn [m_root m_stack m_log set_not_empty with_base base_of].
      rewrite H1. reflexivity. }
    destruct (is_arr q); apply Ha. }
  clearbody R.
  pose proof (HV (put pi p1 T) (pi ++ [Elem])%list (pi :: sigma) l ed) as HV'.
  rewrite Hs0 in HV'. specialize (HV' Hs Hge1 (att_set_disp g e) (@rdy_set_disp g e _ H4)).
  change (list step) with path in HR. rewrite <- HR in HV'.
  rewrite (@pden_w q (schema_of e) (fresh (schema_of e)) (view_of ed) l Hign).
  destruct (pden P q (schema_of e) (view_of ed) l) as [l1 [x|w]]; cbn [andthen open_rel] in *; auto.
  destruct HV' as (e1 & st' & Hw & Hle & HV').
  erewrite put_child_at in HV' by (eauto; reflexivity).
  unfold p1 in HV' at 1. cbn [set_child] in HV'.
  erewrite put_put in HV' by (eauto; simpl; auto).
  eexists (PArr _ true st vals0 e1 cb), (st' ++ [pi ++ [Elem]])%list.
  split; [|split; [|rewrite HV', <- app_assoc; reflexivity]].
  - rewrite view_open_arr by auto. reflexivity.
  - constructor; [right; auto|]. eapply le_trans; [apply le_set_disp|eauto].
Qed.

(** An open array. *)
Lemma parr_rel ts stop d T pi sigma l p ign :
  let s := schema_of p in
  (forall st e cb, s = SArr st e cb -> is_ign e = false -> AStop ts stop e) ->
  (s = SIgn -> ign = true -> exists st i, p = PIgn i /\
     run E g (TArrStart :: flat_map toks d ++ ts) (mkS T (pi :: sigma) l) =
     ROk (mkS (put pi (PIgn (mkI (ig_b i) st)) T) (pi :: sigma) l)) ->
  psup_arr (fun _ => true) ign d s = true -> get pi T = Some p -> att g p -> rdy false p ->
  open_rel (run E g (TArrStart :: flat_map toks d ++ ts) (mkS T (pi :: sigma) l))
           (parr P stop d s (view_of p) l) pi T sigma p.
Proof.
  intros s HA HI Hsup Hg Ha Hr. subst s.
  destruct p; cbn [schema_of psup_arr parr] in *.
  - erewrite run_node by eauto. eexists; split; [reflexivity|auto].
  - destruct Hr as (Hsd & Hre & Hd). subst started. simpl in Ha.
    apply andb_prop in Hsup. destruct Hsup as [Hsup _]. apply andb_prop in Hsup. destruct Hsup as [Hs1 Hs2].
    match goal with |- open_rel ?r _ _ _ _ _ => set (R := r) end.
    set (p0 := PArr b false store vals p cb) in *.
    assert (HR : R = bind (on_p P g p0 pi TArrStart (mkS T (pi :: sigma) l)) (run E g (flat_map toks d ++ ts)))
      by (unfold R; erewrite run_node by eauto; reflexivity).
    clearbody R. unfold p0 in HR. cbn [on_p on_arr reset bind] in HR.
    unfold upd in HR; cbn [m_root m_stack m_log] in HR.
    set (p1 := PArr (reset_base b) true store (if store then [] else vals) (reset p) cb) in *.
    apply open_rel_put with (p1 := p1); auto. { constructor; auto using le_reset. left; auto. }
    rewrite HR, <- (schema_reset g p).
    eapply pelems_rel with (vals := []); auto.
    * rewrite (schema_reset g). eapply HA; eauto. apply negb_true_iff; auto.
    * rewrite (schema_reset g); auto.
    * rewrite (schema_reset g); auto.
    * eapply get_put_same; eauto; simpl; auto.
    * simpl. repeat split; auto using rdy_reset. { intros ->; auto. }
      destruct p; simpl; auto.
  - erewrite run_node by eauto. eexists; split; [reflexivity|auto].
  - erewrite run_node by eauto. eexists; split; [reflexivity|auto].
  - erewrite run_node by eauto. eexists; split; [reflexivity|auto].
  - destruct (HI eq_refl Hsup) as (st & i' & Hi & Hrun). inversion Hi; subst i'.
    eexists _, []. split; [|split; [|rewrite Hrun; reflexivity]].
    + reflexivity.
    + constructor. left; reflexivity.
Qed.

(** An open object. *)
Lemma pobj_rel ts stop sstop d T pi sigma l p ign :
  let s := schema_of p in
  Stop ts stop sstop ->
  (s = SIgn -> ign = true -> exists st i, p = PIgn i /\
     run E g (TMapStart :: member_toks d ++ ts) (mkS T (pi :: sigma) l) =
     ROk (mkS (put pi (PIgn (mkI (ig_b i) st)) T) (pi :: sigma) l)) ->
  psup_obj sstop ign d s = true -> get pi T = Some p -> att g p -> rdy false p ->
  open_rel (run E g (TMapStart :: member_toks d ++ ts) (mkS T (pi :: sigma) l))
           (pobj P stop d s (view_of p) l) pi T sigma p.
Proof.
  intros s HS HI Hsup Hg Ha Hr. subst s.
  assert (Hgo : psup_body sstop d (schema_of p) = true ->
     on_p P g p pi TMapStart (mkS T (pi :: sigma) l) = ROk (upd (mkS T (pi :: sigma) l) pi (reset p)) ->
     open_rel (run E g (TMapStart :: member_toks d ++ ts) (mkS T (pi :: sigma) l))
       (pbody P stop d (schema_of p) true (fresh_kids (schema_of p)) [] l) pi T sigma p).
  { intros Hsb Ho. erewrite run_node by eauto. rewrite Ho. cbn [bind].
    unfold upd; cbn [m_root m_stack m_log].
    apply open_rel_put with (p1 := reset p); auto using le_reset.
    rewrite <- (schema_reset g p). apply (@pbody_rel ts stop sstop HS d).
    - rewrite (schema_reset g); auto.
    - eapply get_put_same; eauto. apply (le_kind (le_reset g p)).
    - apply att_reset; auto.
    - rewrite (schema_reset g). apply open_ok_reset. apply rdy_weaken; auto. }
  destruct p; cbn [schema_of psup_obj pobj] in *.
  - erewrite run_node by eauto. eexists; split; [reflexivity|auto].
  - destruct Hr as (-> & _). erewrite run_node by eauto. eexists; split; [reflexivity|auto].
  - apply Hgo; auto.
  - apply Hgo; auto.
  - destruct (String.eqb tm "") eqn:Htm.
    + erewrite run_node by eauto. cbn [on_p on_uni]. rewrite Htm. eexists; split; [reflexivity|auto].
    + apply Hgo; auto. cbn [on_p on_uni]. rewrite Htm. reflexivity.
  - destruct (HI eq_refl Hsup) as (st & i' & Hi & Hrun). inversion Hi; subst i'.
    eexists _, []. split; [|split; [|rewrite Hrun; reflexivity]].
    + reflexivity.
    + constructor. left; reflexivity.
Qed.

Lemma psup_arr_weaken f ign d s : psup_arr f ign d s = true ->
  psup_arr (fun _ => true) ign d s = true /\ (forall st e cb, s = SArr st e cb -> f e = true).
Proof.
  destruct s; cbn [psup_arr]; intros H; split; auto; try discriminate.
  - apply andb_prop in H. destruct H as [H _]. rewrite H. auto.
  - apply andb_prop in H. destruct H as [_ H]. intros st e cb0 Hs. inversion Hs; subst; auto.
Qed.

Lemma schema_ign p : schema_of p = SIgn -> exists i, p = PIgn i.
Proof. destruct p; try discriminate. eauto. Qed.

Theorem part_run q : PV q.
Proof.
  assert (HIgn : forall q T pi sigma l p, get pi T = Some p -> schema_of p = SIgn -> part_no_null q = true ->
    exists st i, p = PIgn i /\
     run E g (part_toks q) (mkS T (pi :: sigma) l) =
     ROk (mkS (put pi (PIgn (mkI (ig_b i) st)) T) (pi :: sigma) l)).
  { intros q0 T pi sigma l p Hg Hs Hn. destruct (schema_ign _ Hs) as [i ->].
    destruct (@ign_part q0 Hn T pi sigma l i Hg) as [st Hst]. exists st, i. auto. }
  induction q as [d|d q IH|d|d k|d k q IH]; intros T pi sigma l p Hsup Hg Ha Hr; cbn [psupported pden] in *.
  - change (part_toks (PtArr d)) with (TArrStart :: flat_map toks d).
    rewrite <- (app_nil_r (flat_map toks d)). eapply parr_rel; eauto using astop_nil.
    intros Hs Hn. rewrite app_nil_r. apply (HIgn (PtArr d)); auto.
  - change (part_toks (PtArrIn d q)) with (TArrStart :: flat_map toks d ++ part_toks q).
    apply psup_arr_weaken in Hsup. destruct Hsup as [Hsup He].
    eapply parr_rel; eauto.
    + intros st e cb Hs Hi. rewrite Hs. cbn [elem_of]. apply astop_in; auto. eapply He; eauto.
    + intros Hs Hn. apply (HIgn (PtArrIn d q)); auto.
  - change (part_toks (PtObj d)) with (TMapStart :: member_toks d).
    rewrite <- (app_nil_r (member_toks d)). eapply pobj_rel; eauto using stop_here_rel.
    intros Hs Hn. rewrite app_nil_r. apply (HIgn (PtObj d)); auto.
  - change (part_toks (PtKey d k)) with (TMapStart :: member_toks d ++ [TKey k]).
    eapply pobj_rel; eauto using stop_key_rel.
    intros Hs Hn. apply (HIgn (PtKey d k)); auto.
  - change (part_toks (PtObjIn d k q)) with (TMapStart :: member_toks d ++ TKey k :: part_toks q).
    eapply pobj_rel; eauto using stop_in_rel.
    intros Hs Hn. apply (HIgn (PtObjIn d k q)); auto.
Qed.

(** The beginning of a document, for the root parser. *)
Theorem part_document_run q p l :
  psupported q (schema_of p) = true -> att g p -> rdy false p ->
  let r := run E g (part_toks q) (mkS p [[]] l) in
  match pden P q (schema_of p) (view_of p) l with
  | (l', inr w) => exists p' st, r = ROk (mkS p' (st ++ [[]])%list l') /\ view_of p' = w /\ le_p g p p'
  | (l', inl e) => throws r e l'
  end.
Proof.
  intros Hs Ha Hr r. pose proof (@part_run q p [] [] l p Hs eq_refl Ha Hr) as H.
  change (open_rel r (pden P q (schema_of p) (view_of p) l) [] p [] p) in H.
  destruct (pden P q (schema_of p) (view_of p) l) as [l1 [e|w]]; cbn [open_rel] in H; auto.
  destruct H as (p' & st & H1 & H2 & H3). exists p', st. auto.
Qed.
End Stream.
