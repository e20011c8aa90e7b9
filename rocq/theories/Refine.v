(** The machine (Model.v) computes the meaning of documents (Spec.v). *)

From Verif Require Import Spec Model Infra Total Safe.
Local Open Scope string_scope.
Set Implicit Arguments.

(** The program of Spec.v as the environment of the model: its callbacks look at
    parsers only through their public getters. *)
Definition lift (P : prog) : env :=
  mkEnv (fun c l _ a =>
           let x := p_cb P c l (obs_of a) in
           mkCO (map (map Mem) (a_pops x)) [] (a_new x) (a_res x))
        (p_fmt P) (p_store P) (fun _ _ => None).

Lemma index_of_lookup A nm (ms : list (mspec * A)) : index_of nm ms = lookup nm ms.
Proof.
  induction ms as [|[m a] r IH]; simpl; [reflexivity|]. rewrite IH. reflexivity.
Qed.

Lemma lookup_map A B (f : A -> B) nm (ms : list (mspec * A)) :
  lookup nm (map (fun mp => (fst mp, f (snd mp))) ms) = lookup nm ms.
Proof.
  induction ms as [|[m a] r IH]; simpl; [reflexivity|]. rewrite IH; reflexivity.
Qed.

(** ** Views *)
Lemma view_set p : v_set (view_of p) = is_set p.
Proof. destruct p; reflexivity. Qed.

Lemma view_val p : v_val (view_of p) = get_value p.
Proof. destruct p; reflexivity. Qed.

Lemma view_empty p : v_empty (view_of p) = is_empty p.
Proof. destruct p; reflexivity. Qed.

Lemma is_set_set_set x p : is_set (set_set x p) = x.
Proof. destruct p; reflexivity. Qed.

Lemma stored_with_base p b : stored (with_base p b) = stored p.
Proof. destruct p; reflexivity. Qed.

Lemma view_unset p :
  view_of (match stored p with Some _ => set_set false p | None => p end) = popped (view_of p).
Proof.
  unfold popped. rewrite view_val. unfold get_value.
  destruct (is_set p) eqn:Hs.
  - destruct (stored p) eqn:Hst; auto.
    destruct p; unfold is_set in Hs; simpl in *; try discriminate; reflexivity.
  - destruct (stored p) eqn:Hst; auto.
    destruct p; unfold is_set in Hs; simpl in *; unfold get_value, is_set in *; simpl in *;
      rewrite ?Hs in *; try reflexivity; try discriminate.
Qed.

Lemma view_pop_value p v q : pop_value p = Some (v, q) ->
  v_val (view_of p) = Some v /\ view_of q = popped (view_of p).
Proof.
  unfold pop_value. rewrite view_val. rewrite <- view_unset. unfold get_value.
  destruct (is_set p); [|discriminate]. destruct (stored p); [|discriminate].
  intros H; inversion H; subst; auto.
Qed.

Lemma popped_unset p : is_set p = false -> popped (view_of p) = view_of p.
Proof. intros H. unfold popped. rewrite view_val. unfold get_value. rewrite H; auto. Qed.

Lemma stored_set_mem_o b k v ms ig ign cb n q :
  get_value (PObj b k v (set_mem n q ms) ig ign cb) = get_value (PObj b k v ms ig ign cb).
Proof. destruct k; reflexivity. Qed.

Lemma map_view_set_mem n q ms :
  map (fun mp => view_of (snd mp)) (set_mem n q ms)
  = set_nth n (view_of q) (map (fun mp => view_of (snd mp)) ms).
Proof.
  unfold set_mem. destruct (nth_error ms n) eqn:Hn.
  - rewrite map_set_nth; reflexivity.
  - apply nth_error_None in Hn. symmetry.
    clear - Hn. revert n Hn; induction ms as [|x r IH]; intros [|n] Hn; simpl in *; auto.
    + lia.
    + f_equal. apply IH; lia.
Qed.

Lemma view_unset_at rel : forall p,
  view_of (unset_at p (map Mem rel)) = pop_at rel (view_of p).
Proof.
  induction rel as [|n rel IH]; intros p.
  - unfold unset_at; simpl. rewrite <- view_unset. destruct (stored p); reflexivity.
  - cbn [map pop_at].
    assert (Hk : v_kids (view_of p) = [] /\ child p (Mem n) = None \/
                 exists ms, v_kids (view_of p) = map (fun mp => view_of (snd mp)) ms /\
                   child p (Mem n) = option_map snd (nth_error ms n) /\
                   forall q, view_of (set_child p (Mem n) q) =
                      View (v_set (view_of p)) (v_empty (view_of p)) (v_val (view_of p))
                           (v_cur (view_of p))
                           (map (fun mp => view_of (snd mp)) (set_mem n q ms))).
    { destruct p; simpl; auto; right; exists ms; repeat split. }
    destruct Hk as [[H1 H2]|(ms & H1 & H2 & H3)].
    + rewrite unset_at_none by auto. rewrite H1. destruct n; auto.
    + rewrite H1. destruct (nth_error ms n) as [mp|] eqn:Hn.
      * rewrite (map_nth_error _ _ _ Hn). erewrite unset_at_cons by eauto.
        rewrite H3, map_view_set_mem, IH. reflexivity.
      * rewrite unset_at_none by auto.
        assert (Hx : nth_error (map (fun mp => view_of (snd mp)) ms) n = None).
        { apply nth_error_None. rewrite map_length. apply nth_error_None; auto. }
        rewrite Hx; auto.
Qed.

Lemma view_apply_pops rels : forall p,
  view_of (apply_pops (map (map Mem) rels) p) = fold_left (fun w rel => pop_at rel w) rels (view_of p).
Proof.
  induction rels as [|r rels IH]; intros p; simpl; auto.
  fold (apply_pops (map (map Mem) rels) (unset_at p (map Mem r))).
  rewrite IH, view_unset_at. reflexivity.
Qed.

(** ** Readiness for a new value.  [rdy true]: ready once reset. *)
Fixpoint rdy (r : bool) (p : parser) : Prop :=
  match p with
  | PVal _ _ _ _ => True
  | PArr _ sd _ _ e _ =>
      sd = false /\ rdy true e /\
      match e with PVal b _ _ _ => b_disp b = None | _ => True end
  | PMap _ _ _ _ e _ _ => rdy false e
  | PObj _ _ _ ms _ _ _ | PUni _ _ _ _ _ _ ms _ _ =>
      (fix all (ms : list (mspec * parser)) : Prop :=
         match ms with [] => True | mp :: q => rdy true (snd mp) /\ all q end) ms
  | PIgn i => r = false -> ig_st i = [] /\ b_empty (ig_b i) = true
  end.

Definition rdy_ms (r : bool) : list (mspec * parser) -> Prop :=
  fix all (ms : list (mspec * parser)) : Prop :=
    match ms with [] => True | mp :: q => rdy r (snd mp) /\ all q end.

Lemma rdy_weaken p : rdy false p -> rdy true p.
Proof. destruct p; simpl; auto. Qed.

Lemma rdy_any r p : rdy false p -> rdy r p.
Proof. destruct r; auto using rdy_weaken. Qed.

Lemma rdy_ms_nth r ms n mp : rdy_ms r ms -> nth_error ms n = Some mp -> rdy r (snd mp).
Proof.
  revert n; induction ms as [|x q IH]; intros [|n] H Hn; simpl in *; try discriminate.
  - inversion Hn; subst; tauto.
  - eapply IH; eauto; tauto.
Qed.

Lemma rdy_ms_set_mem r ms n q : rdy_ms r ms -> rdy r q -> rdy_ms r (set_mem n q ms).
Proof.
  intros H Hq. unfold set_mem. destruct (nth_error ms n) as [mp|]; auto.
  revert n; induction ms as [|x l IH]; intros [|n]; simpl in *; auto; destruct H; split; auto.
Qed.

Lemma rdy_ms_weaken ms : rdy_ms false ms -> rdy_ms true ms.
Proof. induction ms; simpl; auto. intros [H1 H2]; auto using rdy_weaken. Qed.

Lemma rdy_set_set r x p : rdy r p -> rdy r (set_set x p).
Proof. destruct p; simpl; auto. Qed.

Lemma rdy_unset_at r rel : forall p, rdy r p -> rdy r (unset_at p (map Mem rel)).
Proof.
  revert r. induction rel as [|n rel IH]; intros r p H.
  - unfold unset_at; simpl. destruct (stored p); auto using rdy_set_set.
  - cbn [map]. destruct (child p (Mem n)) as [c|] eqn:Hc.
    + erewrite unset_at_cons by eauto.
      destruct p; simpl in Hc; try discriminate;
        destruct (nth_error ms n) as [mp|] eqn:Hn; inversion Hc; subst;
        simpl in *; fold (rdy_ms true) in *; apply rdy_ms_set_mem; auto;
        apply IH; eapply rdy_ms_nth; eauto.
    + rewrite unset_at_none; auto.
Qed.

Lemma rdy_apply_pops r rels : forall p, rdy r p -> rdy r (apply_pops (map (map Mem) rels) p).
Proof.
  induction rels as [|x rels IH]; intros p H; simpl; auto.
  apply IH. apply rdy_unset_at; auto.
Qed.

Lemma rdy_reset p : rdy true p -> rdy false (reset p).
Proof.
  induction p as [| ? ? ? ? ? ? IH | ? ? ? ? ? ? ? IH | ? ? ? ? ? ? ? IH | ? ? ? ? ? ? ? ? ? IH |]
    using parser_ind'; simpl; auto; fold (rdy_ms true).
  - intros (H1 & H2 & H3). repeat split; auto using rdy_weaken.
    destruct p; simpl in *; auto.
  - intros H. induction IH as [|mp q Hq _ IHq]; simpl in *; auto.
    destruct H; split; auto using rdy_weaken.
  - intros H. induction IH as [|mp q Hq _ IHq]; simpl in *; auto.
    destruct H; split; auto using rdy_weaken.
Qed.

Lemma view_reset p : view_of (reset p) = fresh (schema_of p).
Proof.
  induction p as [| ? ? ? ? ? ? IH | ? ? ? ? ? ? ? IH | ? ? ? ? ? ? ? IH | ? ? ? ? ? ? ? ? ? IH |]
    using parser_ind'; simpl; auto.
  - f_equal. rewrite !map_map; simpl. induction IH as [|mp q Hq _ IHq]; simpl; f_equal; auto.
  - f_equal. rewrite !map_map; simpl. induction IH as [|mp q Hq _ IHq]; simpl; f_equal; auto.
Qed.

Section Refine.
Variable P : prog.
Variable g : nat.
Notation E := (lift P).
Notation call_ := (call_ E g).

Hint Constructors le_p le_ms : le.
Hint Resolve le_refl le_ms_refl le_b_refl le_i_refl : le.

(** ** Unfolding the calls *)
Lemma run_cons t ts s : run E g (t :: ts) s = bind (call_ (CDisp t) s) (run E g ts).
Proof. simpl. rewrite dispatch_call. reflexivity. Qed.

Lemma disp_on t T pi sigma l :
  call_ (CDisp t) (mkS T (pi :: sigma) l) = call_ (COn pi t) (mkS T (pi :: sigma) l).
Proof. rewrite call_eq. reflexivity. Qed.

Lemma cpop_cons T pi pi' sigma l :
  call_ CPop (mkS T (pi :: pi' :: sigma) l) = call_ (CChild pi') (mkS T (pi' :: sigma) l).
Proof. rewrite call_eq. reflexivity. Qed.

Lemma cpop_last T pi l : call_ CPop (mkS T [pi] l) = ROk (mkS T [] l).
Proof. rewrite call_eq. reflexivity. Qed.

Definition on_p (p : parser) (pi : path) (t : token) (s : mstate) : res :=
  match p with
  | PVal _ _ _ _ => on_val g call_ pi p t s
  | PArr _ _ _ _ _ _ => on_arr g call_ pi p t s
  | PMap _ _ _ _ _ _ _ => on_map g call_ pi p t s
  | PObj _ _ _ _ _ _ _ => on_obj E g call_ pi p t s
  | PUni _ _ _ _ _ _ _ _ _ => on_uni E g call_ pi p t s
  | PIgn i => on_ign g call_ pi i t s
  end.

Lemma on_node pi t T st l p :
  get pi T = Some p -> call_ (COn pi t) (mkS T st l) = on_p p pi t (mkS T st l).
Proof.
  intros Hg. rewrite call_eq0 by reflexivity. cbn [call_body]. unfold body_on, at_node. cbn [m_root]. rewrite Hg.
  reflexivity.
Qed.

Lemma disp_node pi t T sigma l p :
  get pi T = Some p ->
  call_ (CDisp t) (mkS T (pi :: sigma) l) = on_p p pi t (mkS T (pi :: sigma) l).
Proof. intros. rewrite disp_on. apply on_node; auto. Qed.

Lemma run_node pi t ts T sigma l p :
  get pi T = Some p ->
  run E g (t :: ts) (mkS T (pi :: sigma) l) =
  bind (on_p p pi t (mkS T (pi :: sigma) l)) (run E g ts).
Proof. intros. rewrite run_cons. erewrite disp_node by eauto. reflexivity. Qed.

Lemma bind_ok r : bind r (fun s => ROk s) = r.
Proof. destruct r; auto. Qed.

Lemma run_one s t : run E g [t] s = call_ (CDisp t) s.
Proof. rewrite run_cons. apply bind_ok. Qed.

(** ** Relations between results and outcomes *)
Definition throws (r : res) (e : exn) (l : list event) : Prop :=
  exists s, r = RThrow e s /\ m_log s = l.

Definition fin_rel (r : res) (o : out) (pi : path) (T : parser) (st : list path) (p : parser) : Prop :=
  match o with
  | (l, inr w) =>
      exists p', view_of p' = w /\ le_p g p p' /\ rdy false p' /\ r = ROk (mkS (put pi p' T) st l)
  | (l, inl e) => throws r e l
  end.

Definition val_rel (r : res) (o : out) (pi : path) (T : parser) (st : list path) (p : parser) : Prop :=
  match o with
  | (l, inr w) =>
      exists p', view_of p' = w /\ le_p g p p' /\ rdy false p' /\
                 r = call_ CPop (mkS (put pi p' T) st l)
  | (l, inl e) => throws r e l
  end.

Lemma throws_bind r e l k : throws r e l -> throws (bind r k) e l.
Proof. intros (s & -> & H). exists s; auto. Qed.

Lemma val_rel_put r o pi T st p p1 :
  get pi T = Some p -> le_p g p p1 ->
  val_rel r o pi (put pi p1 T) st p1 -> val_rel r o pi T st p.
Proof.
  intros Hg Hle. destruct o as [l [e|w]]; simpl; auto.
  intros (p' & H1 & H2 & H3 & H4). exists p'; repeat split; auto.
  - eapply le_trans; eauto.
  - rewrite H4. erewrite put_put; eauto.
    + eapply same_kind_trans; [apply (le_kind Hle)|apply (le_kind H2)].
    + apply (le_kind Hle).
Qed.

Lemma fin_rel_put r o pi T st p p1 :
  get pi T = Some p -> le_p g p p1 ->
  fin_rel r o pi (put pi p1 T) st p1 -> fin_rel r o pi T st p.
Proof.
  intros Hg Hle. destruct o as [l [e|w]]; simpl; auto.
  intros (p' & H1 & H2 & H3 & H4). exists p'; repeat split; auto.
  - eapply le_trans; eauto.
  - rewrite H4. erewrite put_put; eauto.
    + eapply same_kind_trans; [apply (le_kind Hle)|apply (le_kind H2)].
    + apply (le_kind Hle).
Qed.

(** ** Callbacks *)
Lemma fin_invoke c a o eff msg T st l pi p (k : cbact -> view) :
  get pi T = Some p -> obs_of a = o -> rdy false p -> view_of p = k nothing ->
  (forall x l', exists p',
      eff (mkCO (map (map Mem) (a_pops x)) [] (a_new x) (a_res x)) (mkS T st l') = mkS (put pi p' T) st l'
      /\ view_of p' = k x /\ le_p g p p' /\ rdy false p') ->
  fin_rel (run_cb E c a eff msg (mkS T st l))
          (invoke P c o msg l (fun x l => (l, inr (k x)))) pi T st p.
Proof.
  intros Hg Ho Hr Hv He. unfold run_cb, invoke. destruct c as [c|].
  - cbn [m_log e_cb lift]. rewrite Ho. unfold add_log. cbn [m_root m_stack m_log].
    set (x := p_cb P c l o).
    destruct (He x (l ++ [Ev c o])%list) as (p' & H1 & H2 & H3 & H4). cbn [co_res]. rewrite H1.
    destruct (a_res x); unfold err; simpl; try (eexists; split; [reflexivity|auto]; fail).
    exists p'; auto.
  - simpl. exists p. repeat split; auto with le. rewrite put_same; auto.
Qed.

Lemma fin_no_eff c v msg T st l pi p :
  get pi T = Some p -> rdy false p ->
  fin_rel (run_cb E c (AVal v) no_eff msg (mkS T st l))
          (invoke P c (OVal v) msg l (fun _ l => (l, inr (view_of p)))) pi T st p.
Proof.
  intros Hg Hr. apply fin_invoke with (k := fun _ => view_of p); auto.
  intros x l'. exists p. unfold no_eff. rewrite put_same; auto with le.
Qed.

Lemma fin_pops_eff c msg T st l pi p :
  get pi T = Some p -> rdy false p ->
  fin_rel (run_cb E c (ASelf p) (pops_eff pi) msg (mkS T st l))
          (invoke P c (OSelf (view_of p)) msg l (fun x l => (l, inr (pops x (view_of p))))) pi T st p.
Proof.
  intros Hg Hr. apply fin_invoke with (k := fun x => pops x (view_of p)); auto.
  intros x l'. exists (apply_pops (map (map Mem) (a_pops x)) p).
  unfold pops_eff. cbn [m_root]. rewrite Hg. unfold upd; simpl.
  rewrite view_apply_pops. auto using le_apply_pops, rdy_apply_pops.
Qed.

(** ** finish() *)
Definition sms (ms : list (mspec * parser)) : list (mspec * schema) :=
  map (fun mp => (fst mp, schema_of (snd mp))) ms.
Definition vms (ms : list (mspec * parser)) : list view :=
  map (fun mp => view_of (snd mp)) ms.

Lemma check_missing ms :
  check_members E ms = option_map (fun x => XStd (mandatory_msg (name_text P x))) (missing (sms ms) (vms ms)).
Proof.
  induction ms as [|[m p] r IH]; simpl; auto. rewrite IH.
  destruct (missing (sms r) (vms r)); simpl; auto.
  rewrite view_set. destruct (is_set p), (m_opt m); reflexivity.
Qed.

Lemma set_values_spec ms :
  match member_values P (sms ms) (vms ms) with
  | inl x => exists ms', set_values E ms = (ms', inl x)
  | inr vs => exists ms', set_values E ms = (ms', inr vs) /\ le_ms g ms ms' /\
                vms ms' = map popped (vms ms) /\ sms ms' = sms ms /\
                (forall r, rdy_ms r ms -> rdy_ms r ms')
  end.
Proof.
  induction ms as [|[m p] r IH]; cbn [sms vms map member_values set_values fst snd].
  - exists []; repeat split; auto with le.
  - fold (sms r) (vms r). destruct (member_values P (sms r) (vms r)) as [e|vs].
    + destruct IH as (ms' & ->). eexists; reflexivity.
    + destruct IH as (ms' & -> & H1 & H2 & H3 & H4).
      unfold member_value. rewrite view_set, view_val.
      destruct (is_set p) eqn:Hs.
      * destruct (pop_value p) as [[v p']|] eqn:Hp.
        -- assert (Hv : get_value p = Some v).
           { unfold pop_value in Hp. destruct (get_value p); inversion Hp; auto. }
           rewrite Hv. unfold storing. cbn [e_store lift].
           destruct (p_store P v); [eexists; reflexivity|]. eexists; split; [reflexivity|].
           destruct (view_pop_value _ Hp) as [_ Hw].
           assert (Hp' : p' = set_set false p).
           { unfold pop_value in Hp. rewrite Hv in Hp. inversion Hp; auto. }
           cbn [vms sms map fst snd]. fold (vms ms') (sms ms'). rewrite Hw, H2, H3.
           split; [|split; [|split]].
           ++ constructor; auto. eapply le_pop_value; eauto.
           ++ reflexivity.
           ++ do 2 f_equal. symmetry. apply (le_schema (g := g)). eapply le_pop_value; eauto.
           ++ simpl. subst p'. intros r0 [? ?]; auto using rdy_set_set.
        -- assert (Hv : get_value p = None).
           { unfold pop_value in Hp. destruct (get_value p); inversion Hp; auto. }
           rewrite Hv. eexists; reflexivity.
      * destruct (m_opt m); [|eexists; reflexivity].
        destruct (m_def m) as [d|]; [|eexists; reflexivity].
        unfold storing. cbn [e_store lift]. destruct (p_store P d); [eexists; reflexivity|].
        eexists; split; [reflexivity|]. cbn [vms sms map fst snd]. fold (vms ms') (sms ms').
        rewrite H2, H3, popped_unset by auto. split; [|split; [|split]]; auto.
        { constructor; auto with le. }
        simpl. intros r0 [? ?]; auto.
Qed.

Lemma fin_value T st l pi d t x cb :
  get pi T = Some (PVal (mkB d true false) t (VSc x) cb) ->
  fin_rel (finish E pi (mkS T st l)) (end_value P x cb l) pi T st
          (PVal (mkB d true false) t (VSc x) cb).
Proof.
  intros Hg. unfold finish, at_node. cbn [m_root]. rewrite Hg.
  unfold end_value.
  change (View true false (Some (VSc x)) 0 []) with (view_of (PVal (mkB d true false) t (VSc x) cb)).
  apply fin_no_eff; simpl; auto.
Qed.

Lemma fin_array T st l pi d em sto vals e cb :
  let p := PArr (mkB d true em) false sto vals e cb in
  get pi T = Some p -> rdy false p ->
  fin_rel (finish E pi (mkS T st l)) (end_array P sto cb em vals l) pi T st p.
Proof.
  intros p Hg Hr. unfold finish, at_node. cbn [m_root]. rewrite Hg. unfold p at 1.
  unfold end_array. destruct sto.
  - change (View true em (Some (VVec vals)) 0 []) with (view_of p).
    apply fin_no_eff; auto.
  - change (View true em None 0 []) with (view_of p).
    apply fin_pops_eff; auto.
Qed.

Lemma fin_map T st l pi d em sto key vals e ecb cb :
  let p := PMap (mkB d true em) sto key vals e ecb cb in
  get pi T = Some p -> rdy false p ->
  fin_rel (finish E pi (mkS T st l)) (end_map P sto cb em vals l) pi T st p.
Proof.
  intros p Hg Hr. unfold finish, at_node. cbn [m_root]. rewrite Hg. unfold p at 1.
  unfold end_map.
  replace (View true em (if sto then Some (VMap vals) else None) 0 []) with (view_of p)
    by (destruct sto; reflexivity).
  apply fin_pops_eff; auto.
Qed.

Lemma fin_throw T st l pi q m o :
  throws (RThrow (XStd m) (upd (mkS T st l) pi q)) o l -> fin_rel (RThrow (XStd m) (upd (mkS T st l) pi q)) (l, inl o) pi T st q.
Proof. auto. Qed.

Lemma fin_object T st l pi d em k v ms ig ign cb :
  let p := PObj (mkB d true em) k v ms ig ign cb in
  get pi T = Some p -> rdy_ms true ms -> (k = OCustom -> v = VCust None) ->
  fin_rel (finish E pi (mkS T st l)) (end_object P k (sms ms) cb em (vms ms) l) pi T st p.
Proof.
  intros p Hg Hr Hv. unfold finish, at_node. cbn [m_root]. rewrite Hg. unfold p at 1.
  unfold end_object. cbn [b_empty]. destruct em.
  { simpl. exists (set_set false p). repeat split; auto using le_set_set. }
  destruct k.
  - rewrite check_missing. destruct (missing (sms ms) (vms ms)) as [x|]; cbn [option_map].
    + eexists; split; [reflexivity|auto].
    + change (View true false None 0 (vms ms)) with (view_of p).
      apply fin_pops_eff; auto.
  - pose proof (set_values_spec ms) as H.
    destruct (member_values P (sms ms) (vms ms)) as [m|vs].
    + destruct H as (ms' & ->). eexists; split; [destruct m; reflexivity|auto].
    + destruct H as (ms' & -> & H1 & H2 & H3 & H4).
      set (p1 := PObj (mkB d true false) OAuto (VTup vs) ms' ig ign cb).
      apply fin_rel_put with (p1 := p1); auto; [constructor; auto with le|].
      rewrite <- H2.
      change (View true false (Some (VTup vs)) 0 (vms ms')) with (view_of p1).
      apply fin_no_eff.
      * eapply get_put_same; eauto. simpl; auto.
      * simpl. apply (H4 true); auto.
  - rewrite check_missing. destruct (missing (sms ms) (vms ms)) as [x|]; cbn [option_map].
    + eexists; split; [reflexivity|auto].
    + rewrite (Hv eq_refl).
      apply fin_invoke with (k := fun a => pops a (View true false (Some (VCust (a_new a))) 0 (vms ms)));
        [auto | unfold p; rewrite (Hv eq_refl); reflexivity | auto
         | unfold p; rewrite (Hv eq_refl); reflexivity |].
      intros x l'. unfold cust_eff. cbn [m_root co_new co_pops]. rewrite Hg. unfold p at 1. rewrite (Hv eq_refl).
      set (p1 := PObj (mkB d true false) OCustom
                (match a_new x with Some w => VCust (Some w) | None => VCust None end) ms ig ign cb).
      exists (apply_pops (map (map Mem) (a_pops x)) p1). unfold upd; cbn [m_root m_stack m_log].
      split; auto. split.
      { rewrite view_apply_pops. unfold pops. f_equal. destruct (a_new x); reflexivity. }
      split.
      { eapply le_trans; [|apply le_apply_pops]. constructor; auto with le. }
      apply rdy_apply_pops. auto.
Qed.

Lemma fin_union_empty T st l pi d sto v t tm cur ms ig cb :
  let p := PUni (mkB d true true) sto v t tm cur ms ig cb in
  get pi T = Some p -> rdy_ms true ms ->
  fin_rel (finish E pi (mkS T st l)) (l, inr (View false true None 0 (vms ms))) pi T st p.
Proof.
  intros p Hg Hr. unfold finish, at_node. cbn [m_root]. rewrite Hg. unfold p at 1. cbn [b_empty].
  exists (set_set false p). repeat split; auto using le_set_set.
Qed.

Lemma vms_nth ms i mp : nth_error ms i = Some mp -> nth_error (vms ms) i = Some (view_of (snd mp)).
Proof. intros; unfold vms. erewrite map_nth_error; eauto. Qed.

Lemma set_nth_nth A i (x : A) l k : l = set_nth i x k -> set_nth i x l = l.
Proof. intros ->. apply set_nth_set_nth. Qed.

Lemma fin_union T st l pi d sto v t tm i ms ig cb m q kids :
  let p := PUni (mkB d true false) sto v t tm i ms ig cb in
  get pi T = Some p -> rdy_ms true ms -> nth_error ms i = Some (m, q) ->
  vms ms = set_nth i (view_of q) kids ->
  fin_rel (finish E pi (mkS T st l)) (end_union P sto cb i m (view_of q) kids l) pi T st p.
Proof.
  intros p Hg Hr Hn Hk. unfold finish, at_node. cbn [m_root]. rewrite Hg. unfold p at 1.
  cbn [b_empty]. unfold end_union. destruct sto.
  - unfold uni_set_value, member_value. rewrite Hn. rewrite view_set, view_val.
    destruct (is_set q) eqn:Hs.
    + destruct (pop_value q) as [[w q']|] eqn:Hp.
      * assert (Hv : get_value q = Some w).
        { unfold pop_value in Hp. destruct (get_value q); inversion Hp; auto. }
        rewrite Hv.
        destruct (view_pop_value _ Hp) as [_ Hw].
        assert (Hq' : q' = set_set false q).
        { unfold pop_value in Hp. rewrite Hv in Hp. inversion Hp; auto. }
        unfold storing. cbn [e_store lift].
        destruct (p_store P w) as [x|]; [eexists; split; [destruct x; reflexivity|auto]|].
        set (p1 := PUni (mkB d true false) true (VVar i w) t tm i (set_mem i q' ms) ig cb).
        apply fin_rel_put with (p1 := p1); auto.
        { constructor; auto with le. eapply le_set_mem; eauto. eapply le_pop_value; eauto. }
        replace (View true false (Some (VVar i w)) i (set_nth i (popped (view_of q)) kids))
          with (view_of p1).
        2:{ unfold p1. cbn [view_of base_of b_set b_empty]. f_equal.
            rewrite map_view_set_mem. fold (vms ms). rewrite Hk, Hw. apply set_nth_set_nth. }
        apply fin_no_eff.
        -- eapply get_put_same; eauto. simpl; auto.
        -- simpl. fold (rdy_ms true). apply rdy_ms_set_mem; auto. rewrite Hq'.
           apply rdy_set_set. apply (rdy_ms_nth true _ _ Hr Hn).
      * assert (Hv : get_value q = None).
        { unfold pop_value in Hp. destruct (get_value q); inversion Hp; auto. }
        rewrite Hv. eexists; split; [reflexivity|auto].
    + destruct (m_opt m); [|eexists; split; [reflexivity|auto]].
      destruct (m_def m) as [w|]; [|eexists; split; [reflexivity|auto]].
      unfold storing. cbn [e_store lift].
      destruct (p_store P w) as [x|]; [eexists; split; [destruct x; reflexivity|auto]|].
      rewrite popped_unset by auto.
      set (p1 := PUni (mkB d true false) true (VVar i w) t tm i ms ig cb).
      apply fin_rel_put with (p1 := p1); auto.
      { constructor; auto with le. }
      rewrite <- Hk.
      change (View true false (Some (VVar i w)) i (vms ms)) with (view_of p1).
      apply fin_no_eff.
      * eapply get_put_same; eauto. simpl; auto.
      * simpl. auto.
  - unfold uni_check. rewrite Hn, view_set.
    destruct (is_set q), (m_opt m); cbn [negb andb orb];
      try (eexists; split; [reflexivity|auto]; fail);
      rewrite <- Hk; change (View true false None i (vms ms)) with (view_of p);
      apply fin_pops_eff; auto.
Qed.

Lemma le_disp p q : le_p g p q -> disp_of p = Some g -> disp_of q = Some g.
Proof.
  unfold disp_of; intros H; inversion H; subst; simpl; unfold le_i, le_b in *;
    intuition congruence.
Qed.

(** ** endParsing() *)
Lemma cend_rel T sigma l pi p o :
  get pi T = Some p -> disp_of p = Some g ->
  fin_rel (finish E pi (mkS (put pi (set_set true p) T) (pi :: sigma) l)) o
          pi (put pi (set_set true p) T) (pi :: sigma) (set_set true p) ->
  val_rel (call_ (CEnd pi) (mkS T (pi :: sigma) l)) o pi T (pi :: sigma) p.
Proof.
  intros Hg Hd H. apply val_rel_put with (p1 := set_set true p); auto using le_set_set.
  rewrite call_eq0 by reflexivity. cbn [call_body]. unfold body_end, at_node at 1. cbn [m_root]. rewrite Hg.
  unfold upd. cbn [m_root m_stack m_log].
  destruct o as [l' [e|w]]; cbn [fin_rel val_rel] in *.
  - apply throws_bind; auto.
  - destruct H as (p' & H1 & H2 & H3 & ->). exists p'; repeat split; auto. cbn [bind].
    assert (Hk : same_kind p (set_set true p)) by (apply (le_kind (le_set_set g true p))).
    assert (Hg1 : get pi (put pi (set_set true p) T) = Some (set_set true p))
      by (eapply get_put_same; eauto).
    unfold at_node. cbn [m_root]. erewrite get_put_same; [|exact Hg1|apply (le_kind H2)].
    assert (Hd' : disp_of p' = Some g).
    { assert (Hs : disp_of (set_set true p) = Some g) by (destruct p; auto).
      eapply le_disp; eauto. }
    rewrite Hd'. simpl. rewrite Nat.eqb_refl. reflexivity.
Qed.

(** ** null *)
Lemma null_rel T sigma l pi p :
  get pi T = Some p -> disp_of p = Some g -> rdy true p ->
  val_rel (on_null g call_ pi p (mkS T (pi :: sigma) l)) (l, inr (fresh (schema_of p)))
          pi T (pi :: sigma) p.
Proof.
  intros Hg Hd Hr. exists (reset p). rewrite view_reset.
  repeat split; auto using le_reset, rdy_reset.
  unfold on_null. rewrite Hd. simpl. rewrite Nat.eqb_refl. reflexivity.
Qed.
End Refine.
