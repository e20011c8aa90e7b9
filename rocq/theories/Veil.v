(** No half-read value can be read: whenever the program gets control, the parsers whose
    values are being read are not set. *)

From Coq Require Import SpecFloat.
From Verif Require Import Spec Model Infra Total Safe Lock Depth Unset.
Local Open Scope string_scope.
Set Implicit Arguments.

(** ** Specification *)

(** All the parsers around the one at [pi] are not set. *)
Definition shut (pi : path) (T : parser) : Prop :=
  forall a st rel q, pi = (a ++ st :: rel)%list -> get a T = Some q -> is_set q = false.

(** The element callback. *)
Definition ecb_of (p : parser) : option cbid := match p with PMap _ _ _ _ _ ecb _ => ecb | _ => None end.

(** The callback [c] is invoked with argument [a], with the parsers in the state [T], at
    the right moment: nothing that contains its parser is set; the parser itself is set
    and its argument is what get() returns or the parser itself, if it is a finish
    callback, and not set, with the element as argument, if it is an element callback. *)
Inductive due (c : cbid) (T : parser) : cbarg -> Prop :=
| due_value pi p v : get pi T = Some p -> shut pi T -> cb_of p = Some c ->
    is_set p = true -> stored p = Some v -> due c T (AVal v)
| due_self pi p : get pi T = Some p -> shut pi T -> cb_of p = Some c ->
    is_set p = true -> due c T (ASelf p)
| due_custom pi p v : get pi T = Some p -> shut pi T -> cb_of p = Some c ->
    is_set p = true -> stored p = Some v -> due c T (ACust p v)
| due_element pi b st key vals e ecb cb : get pi T = Some (PMap b st key vals e ecb cb) -> shut pi T -> ecb = Some c ->
    b_set b = false -> due c T (AElem key e).

(** ** Set flags only go down *)

Definition loc (p q : parser) : Prop :=
  (is_set q = true -> is_set p = true) /\ disp_of q = disp_of p /\ same_kind p q /\ (started q = true -> started p = true).

Definition dims (p q : parser) : Prop := forall rho,
  match get rho p, get rho q with
  | Some c, Some d => loc c d
  | None, None => True
  | _, _ => False
  end.

Lemma loc_refl p : loc p p.
Proof. unfold loc. auto using same_kind_refl. Qed.

Lemma loc_trans p q r : loc p q -> loc q r -> loc p r.
Proof. intros (A1 & A2 & A3 & A4) (B1 & B2 & B3 & B4). unfold loc. rewrite B2. repeat split; eauto using same_kind_trans. Qed.

Lemma dims_refl p : dims p p.
Proof. intros rho. destruct (get rho p); auto using loc_refl. Qed.

Lemma dims_trans p q r : dims p q -> dims q r -> dims p r.
Proof.
  intros H1 H2 rho. specialize (H1 rho). specialize (H2 rho). destruct (get rho p), (get rho q), (get rho r); try contradiction; eauto using loc_trans.
Qed.

Definition both_kids (c d : option parser) : Prop :=
  match c, d with Some c, Some d => dims c d | None, None => True | _, _ => False end.

Lemma dims_node p q : loc p q -> (forall st, both_kids (child p st) (child q st)) -> dims p q.
Proof.
  intros Hl Hk [|st rho]; cbn [get]; [exact Hl|]. specialize (Hk st).
  destruct (child p st), (child q st); try contradiction; auto. apply Hk.
Qed.

Lemma dims_loc p q : dims p q -> loc p q.
Proof. intros H. exact (H []). Qed.

Lemma dims_child p q st c : dims p q -> child p st = Some c -> exists d, child q st = Some d /\ dims c d.
Proof.
  intros H Hc. pose proof (H [st]) as H1. cbn [get] in H1. rewrite Hc in H1. destruct (child q st) as [d|] eqn:Hd; [|contradiction].
  exists d. split; auto. intros rho. specialize (H (st :: rho)). cbn [get] in H. rewrite Hc, Hd in H. exact H.
Qed.

Lemma both_refl c : both_kids c c.
Proof. destruct c; simpl; auto using dims_refl. Qed.

Lemma dims_kids p q : loc p q -> (forall st, child q st = child p st) -> dims p q.
Proof. intros Hl H. apply dims_node; auto. intros st. rewrite H. apply both_refl. Qed.

Lemma loc_set_child p st q : loc p (set_child p st q).
Proof. destruct p, st; unfold loc; simpl; auto. Qed.

Lemma dims_put pi : forall T p q, get pi T = Some p -> dims p q -> dims T (put pi q T).
Proof.
  induction pi as [|st pi IH]; intros T p q Hg Hd; cbn [get put] in *; [injection Hg as ->; exact Hd|].
  destruct (child T st) as [c|] eqn:Hc; [|discriminate]. specialize (IH c p q Hg Hd).
  apply dims_node; [apply loc_set_child|]. intros st'. destruct (step_eq_dec st st') as [<-|Hn].
  - rewrite Hc. erewrite child_set_child_eq; [|exact Hc|eapply fits_same_kind; [exact Hc|apply (dims_loc IH)]]. exact IH.
  - rewrite child_set_child_neq by auto. apply both_refl.
Qed.

Lemma dims_set_false p : dims p (set_set false p).
Proof. apply dims_kids; [|destruct p; reflexivity]. unfold loc. split; [destruct p; discriminate|]. destruct p; simpl; auto. Qed.

Lemma dims_not_empty p : dims p (set_not_empty p).
Proof. apply dims_kids; [|destruct p; reflexivity]. unfold loc. destruct p; simpl; auto. Qed.

Lemma dims_unset_at p rel : dims p (unset_at p rel).
Proof.
  unfold unset_at. destruct (get rel p) as [q|] eqn:Hq; [|apply dims_refl].
  destruct (stored q); [|apply dims_refl]. eapply dims_put; [exact Hq|apply dims_set_false].
Qed.

Lemma dims_pops rels : forall p, dims p (apply_pops rels p).
Proof.
  induction rels as [|r rels IH]; intros p; [apply dims_refl|]. unfold apply_pops in *. simpl.
  eapply dims_trans; [apply dims_unset_at|apply IH].
Qed.

Lemma dims_pop_value p v q : pop_value p = Some (v, q) -> dims p q.
Proof. unfold pop_value. destruct (get_value p); intros H; [|discriminate]. injection H as _ <-. apply dims_set_false. Qed.

Definition dims_ms (ms ms' : list (mspec * parser)) : Prop :=
  forall n, both_kids (option_map snd (nth_error ms n)) (option_map snd (nth_error ms' n)).

Lemma dims_ms_cons m p q r r' : dims p q -> dims_ms r r' -> dims_ms ((m, p) :: r) ((m, q) :: r').
Proof. intros H1 H2 [|n]; [exact H1|apply (H2 n)]. Qed.

Lemma dims_ms_refl ms : dims_ms ms ms.
Proof. intros n. apply both_refl. Qed.

Lemma dims_set_values E ms : dims_ms ms (fst (set_values E ms)).
Proof.
  induction ms as [|[m p] r IH]; [apply dims_ms_refl|]. cbn [set_values].
  destruct (set_values E r) as [r' [e|vs]]; cbn [fst] in *; [apply dims_ms_cons; auto using dims_refl|].
  destruct (is_set p).
  - destruct (pop_value p) as [[v p']|] eqn:Hp; [destruct (e_store E v)|]; cbn [fst]; apply dims_ms_cons; eauto using dims_refl, dims_pop_value.
  - destruct (m_opt m); [destruct (m_def m) as [d|]; [destruct (e_store E d)|]|]; cbn [fst]; apply dims_ms_cons; auto using dims_refl.
Qed.

Lemma dims_set_mem ms n mp q : nth_error ms n = Some mp -> dims (snd mp) q -> dims_ms ms (set_mem n q ms).
Proof.
  intros Hn Hd k. destruct (Nat.eq_dec k n) as [->|Hk].
  - rewrite (set_mem_nth_eq _ q _ Hn), Hn. exact Hd.
  - unfold set_mem. rewrite Hn. rewrite nth_error_set_nth_ne by auto. apply both_refl.
Qed.

Lemma dims_uni_set E cur ms : dims_ms ms (fst (uni_set_value E cur ms)).
Proof.
  unfold uni_set_value. destruct (nth_error ms cur) as [[m p]|] eqn:Hn; [|apply dims_ms_refl].
  destruct (is_set p).
  - destruct (pop_value p) as [[v p']|] eqn:Hp; [|apply dims_ms_refl]. cbn [fst]. eapply dims_set_mem; [exact Hn|]. eapply dims_pop_value; eauto.
  - destruct (m_opt m); [destruct (m_def m)|]; apply dims_ms_refl.
Qed.

Lemma dims_obj b b' k k' v v' ms ms' ig ig' ign ign' cb cb' : (b_set b' = true -> b_set b = true) -> b_disp b' = b_disp b ->
  loc (PIgn ig) (PIgn ig') ->
  dims_ms ms ms' -> dims (PObj b k v ms ig ign cb) (PObj b' k' v' ms' ig' ign' cb').
Proof.
  intros H1 H2 H3 H4. apply dims_node; [unfold loc; simpl; auto|]. intros [|n|]; cbn [child]; [exact I|exact (H4 n)|].
  apply dims_kids; auto.
Qed.

Lemma dims_uni b b' st st' v v' t t' tm tm' cur cur' ms ms' ig ig' cb cb' : (b_set b' = true -> b_set b = true) -> b_disp b' = b_disp b ->
  loc (PIgn ig) (PIgn ig') ->
  dims_ms ms ms' -> dims (PUni b st v t tm cur ms ig cb) (PUni b' st' v' t' tm' cur' ms' ig' cb').
Proof.
  intros H1 H2 H3 H4. apply dims_node; [unfold loc; simpl; auto|]. intros [|n|]; cbn [child]; [exact I|exact (H4 n)|].
  apply dims_kids; auto.
Qed.

Lemma dims_ms_map (f : parser -> parser) ms : Forall (fun mp => dims (snd mp) (f (snd mp))) ms -> dims_ms ms (map (fun mp => (fst mp, f (snd mp))) ms).
Proof.
  intros H n. rewrite nth_error_map. destruct (nth_error ms n) as [mp|] eqn:Hn; [|exact I]. simpl.
  rewrite Forall_forall in H. apply H. eapply nth_error_In; eauto.
Qed.

Lemma dims_reset p : dims p (reset p).
Proof.
  induction p using parser_ind'.
  - apply dims_kids; [unfold loc; simpl; auto; split; auto; discriminate|reflexivity].
  - apply dims_node; [unfold loc; simpl; split; auto; discriminate|]. intros [| |]; simpl; auto.
  - apply dims_kids; [unfold loc; simpl; split; auto; discriminate|reflexivity].
  - cbn [reset]. apply dims_obj; simpl; auto; try discriminate. 2: apply dims_ms_map; auto.
    unfold loc; simpl; split; auto; discriminate.
  - cbn [reset]. apply dims_uni; simpl; auto; try discriminate. 2: apply dims_ms_map; auto.
    unfold loc; simpl; split; auto; discriminate.
  - apply dims_kids; [unfold loc; simpl; split; auto; discriminate|reflexivity].
Qed.

(** ** Started arrays are not set *)

Definition calm (T : parser) : Prop := forall rho p, get rho T = Some p -> started p = true -> is_set p = false.

(** A parser that the dispatcher holds on top, when no value has to begin. *)
Definition resting (g : nat) (pi : path) (T : parser) : Prop := forall p, get pi T = Some p ->
  is_set p = false \/ disp_of p <> Some g \/ exists i, p = PIgn i.

Lemma dims_get T T' rho p' : dims T T' -> get rho T' = Some p' -> exists p, get rho T = Some p /\ loc p p'.
Proof. intros H Hg. specialize (H rho). rewrite Hg in H. destruct (get rho T) as [p|]; [eauto|contradiction]. Qed.

Lemma loc_unset p p' : loc p p' -> is_set p = false -> is_set p' = false.
Proof. intros [H _] Hp. destruct (is_set p'); auto. rewrite H in Hp; auto. Qed.

Lemma calm_dims T T' : calm T -> dims T T' -> calm T'.
Proof.
  intros Hc Hd rho p' Hg Hs. destruct (dims_get _ Hd Hg) as (p & Hp & Hl). eapply loc_unset; [exact Hl|].
  apply (Hc rho p Hp). destruct Hl as (_ & _ & _ & H). auto.
Qed.

Lemma shut_dims pi T T' : shut pi T -> dims T T' -> shut pi T'.
Proof.
  intros Hc Hd a st rel q Hpi Hg. destruct (dims_get _ Hd Hg) as (p & Hp & Hl). eapply loc_unset; [exact Hl|]. eapply Hc; eauto.
Qed.

Lemma resting_dims g pi T T' : resting g pi T -> dims T T' -> resting g pi T'.
Proof.
  intros Hc Hd p' Hg. destruct (dims_get _ Hd Hg) as (p & Hp & Hl). destruct (Hc p Hp) as [H|[H|[i ->]]].
  - left. eapply loc_unset; eauto.
  - right. left. destruct Hl as (_ & -> & _). exact H.
  - right. right. destruct Hl as (_ & _ & Hk & _). destruct p'; try contradiction. eauto.
Qed.

Lemma calm_node p : (started p = true -> is_set p = false) -> (forall st c, child p st = Some c -> calm c) -> calm p.
Proof.
  intros H1 H2 [|st rho] q Hg; cbn [get] in Hg; [injection Hg as <-; exact H1|].
  destruct (child p st) as [c|] eqn:Hc; [|discriminate]. apply (H2 st c Hc rho q Hg).
Qed.

Lemma calm_own p : calm p -> started p = true -> is_set p = false.
Proof. intros H. apply (H []). reflexivity. Qed.

Lemma calm_child p st c : calm p -> child p st = Some c -> calm c.
Proof. intros H Hc rho q Hg. apply (H (st :: rho)). cbn [get]. rewrite Hc. exact Hg. Qed.

Lemma calm_get pi T p : calm T -> get pi T = Some p -> calm p.
Proof. intros H Hg rho q Hq. apply (H (pi ++ rho)%list). rewrite get_app, Hg. exact Hq. Qed.

Lemma set_set_child st p q : is_set (set_child p st q) = is_set p /\ started (set_child p st q) = started p.
Proof. destruct p, st; simpl; auto. Qed.

Lemma calm_put pi : forall T p q, get pi T = Some p -> same_kind p q -> calm T -> calm q -> calm (put pi q T).
Proof.
  induction pi as [|st pi IH]; intros T p q Hg Hk HT Hq; cbn [get put] in *; [exact Hq|].
  destruct (child T st) as [c|] eqn:Hc; [|discriminate]. apply calm_node.
  - destruct (set_set_child st T (put pi q c)) as [-> ->]. apply calm_own; auto.
  - intros st' d Hd. destruct (step_eq_dec st st') as [<-|Hn].
    + erewrite child_set_child_eq in Hd; [|exact Hc|eapply fits_same_kind; [exact Hc|eapply put_kind; eauto]].
      injection Hd as <-. exact (IH c p q Hg Hk (calm_child _ HT Hc) Hq).
    + rewrite child_set_child_neq in Hd by auto. exact (calm_child _ HT Hd).
Qed.

Lemma calm_set_disp d p : calm p -> calm (set_disp d p).
Proof.
  induction p as [| | ? ? ? ? e ? ? IH | ? ? ? ms ? ? ? IH | ? ? ? ? ? ? ms ? ? IH |] using parser_ind'; intros H; apply calm_node.
  - discriminate.
  - intros [] c Hc; discriminate.
  - exact (calm_own H).
  - intros [] c Hc; try discriminate. injection Hc as <-. apply (@calm_child _ Elem p H). reflexivity.
  - discriminate.
  - intros [] c Hc; try discriminate. injection Hc as <-. apply IH. apply (@calm_child _ Elem e H). reflexivity.
  - discriminate.
  - intros [|n|] c Hc; try discriminate; cbn [set_disp child] in Hc.
    + rewrite nth_error_map in Hc. destruct (nth_error ms n) as [mp|] eqn:Hn; [|discriminate]. injection Hc as <-.
      rewrite Forall_forall in IH. cbn [snd]. apply IH; [eapply nth_error_In; eauto|]. apply (@calm_child _ (Mem n) (snd mp) H). cbn [child]. rewrite Hn. reflexivity.
    + injection Hc as <-. intros [|? ?] q Hq; [injection Hq as <-|discriminate]. discriminate.
  - discriminate.
  - intros [|n|] c Hc; try discriminate; cbn [set_disp child] in Hc.
    + rewrite nth_error_map in Hc. destruct (nth_error ms n) as [mp|] eqn:Hn; [|discriminate]. injection Hc as <-.
      rewrite Forall_forall in IH. cbn [snd]. apply IH; [eapply nth_error_In; eauto|]. apply (@calm_child _ (Mem n) (snd mp) H). cbn [child]. rewrite Hn. reflexivity.
    + injection Hc as <-. intros [|? ?] q Hq; [injection Hq as <-|discriminate]. discriminate.
  - discriminate.
  - intros [] c Hc; discriminate.
Qed.

(** ** Paths *)

Lemma shut_prefix a rel T : shut (a ++ rel)%list T -> shut a T.
Proof. intros H b st r q Hb Hg. apply (H b st (r ++ rel)%list q); auto. rewrite Hb, <- app_assoc. reflexivity. Qed.

Lemma snoc_split (A : Type) (pi : list A) st a st' rel : (pi ++ [st])%list = (a ++ st' :: rel)%list ->
  a = pi \/ exists rel', pi = (a ++ st' :: rel')%list.
Proof.
  destruct rel as [|r rel] using rev_ind; intros H.
  - apply app_inj_tail in H. destruct H as [-> _]. auto.
  - clear IHrel. change (a ++ st' :: rel ++ [r])%list with (a ++ (st' :: rel) ++ [r])%list in H. rewrite app_assoc in H.
    apply app_inj_tail in H. destruct H as [-> _]. eauto.
Qed.

Lemma shut_snoc pi st T : shut pi T -> (forall q, get pi T = Some q -> is_set q = false) -> shut (pi ++ [st])%list T.
Proof.
  intros H1 H2 a st' rel q Hpi Hg. destruct (@snoc_split _ _ _ _ _ _ Hpi) as [->|[rel' ->]]; auto. eapply H1; eauto.
Qed.

Lemma put_set st rel q p : is_set (put (st :: rel) q p) = is_set p.
Proof. cbn [put]. destruct (child p st); [apply set_set_child|reflexivity]. Qed.

Lemma shut_put pi T p q : get pi T = Some p -> same_kind p q -> shut pi T -> shut pi (put pi q T).
Proof.
  intros Hg Hk H a st rel c -> Hc. rewrite get_app in Hg. destruct (get a T) as [x|] eqn:Ha; [|discriminate].
  rewrite (put_app a (st :: rel) T q Ha) in Hc. erewrite get_put_same in Hc; [|exact Ha|eapply put_kind; eauto].
  replace c with (put (st :: rel) q x) by congruence. rewrite put_set. eapply H; eauto.
Qed.

(** ** States *)
Section Veil.
Variable g : nat.

(** [w]: a value has to begin. *)
Definition topped (w : bool) (s : mstate) : Prop :=
  match m_stack s with top :: _ => shut top (m_root s) /\ (w = false -> resting g top (m_root s)) | [] => True end.
Definition okst (w : bool) (s : mstate) : Prop := calm (m_root s) /\ nested (m_stack s) /\ topped w s.

Definition settled (r : res) (w : bool) : Prop :=
  match r with ROk s => okst w s | RThrow _ s => okst true s | _ => True end.

Lemma okst_true w s : okst w s -> okst true s.
Proof.
  intros (H1 & H2 & H3). repeat split; auto. unfold topped in *. destruct (m_stack s); auto. destruct H3; split; auto. discriminate.
Qed.

Lemma okst_dims w s s' : okst w s -> dims (m_root s) (m_root s') -> m_stack s' = m_stack s -> okst w s'.
Proof.
  intros (H1 & H2 & H3) Hd Hs. split; [eapply calm_dims; eauto|]. split; [rewrite Hs; auto|]. unfold topped in *. rewrite Hs.
  destruct (m_stack s); auto. destruct H3. split; eauto using shut_dims, resting_dims.
Qed.

Lemma okst_at w pi s : calm (m_root s) -> nested (m_stack s) -> under pi (m_stack s) -> shut pi (m_root s) ->
  (w = false -> resting g pi (m_root s)) -> okst w s.
Proof.
  intros H1 H2 H3 H4 H5. split; auto. split; auto. unfold topped. destruct (m_stack s) as [|top r]; auto.
  destruct H3 as [rel ->]. split; [eapply shut_prefix; eauto|]. intros Hw. destruct rel as [|st rel].
  - rewrite app_nil_r in H5. auto.
  - intros q Hq. left. eapply H4; eauto.
Qed.

Definition calmly (s : mstate) (r : res) : Prop :=
  match r with ROk s' | RThrow _ s' => dims (m_root s) (m_root s') /\ m_stack s' = m_stack s | _ => True end.

Lemma away_dims rels s : dims (m_root s) (m_root (away rels s)).
Proof. rewrite away_root. apply dims_pops. Qed.

Definition eff_dims (eff : cbout -> mstate -> mstate) : Prop :=
  forall o s, dims (m_root s) (m_root (eff o s)) /\ m_stack (eff o s) = m_stack s.

Lemma no_dims : eff_dims no_eff.
Proof. intros o s. split; auto using dims_refl. Qed.
Lemma pops_dims pi : eff_dims (pops_eff pi).
Proof.
  intros o s. unfold pops_eff. destruct (get pi (m_root s)) as [p|] eqn:Hg; [|split; auto using dims_refl].
  split; auto. simpl. eapply dims_put; eauto using dims_pops.
Qed.
Lemma cust_dims pi : eff_dims (cust_eff pi).
Proof.
  intros o s. unfold cust_eff. destruct (get pi (m_root s)) as [p|] eqn:Hg; [|split; auto using dims_refl].
  destruct p; try (split; auto using dims_refl).
  simpl. eapply dims_put; [exact Hg|]. eapply dims_trans; [|apply dims_pops].
  apply dims_kids; [unfold loc; simpl; auto|reflexivity].
Qed.


Section Calmly.
Variable E : env.

Lemma calmly_cb c a eff msg s : eff_dims eff -> calmly s (run_cb E c a eff msg s).
Proof.
  intros He. unfold run_cb. destruct c as [c|]; [|split; auto using dims_refl].
  set (o := e_cb E c (m_log s) (m_root s) a). set (s1 := add_log s (Ev c (obs_of a))).
  assert (H : dims (m_root s) (m_root (away (co_away o) (eff o s1))) /\ m_stack (away (co_away o) (eff o s1)) = m_stack s).
  { destruct (He o s1) as [H1 H2]. split.
    - eapply dims_trans; [exact H1|apply away_dims].
    - rewrite away_stack. exact H2. }
  destruct (co_res o); exact H.
Qed.

Lemma calmly_trans s s1 r : dims (m_root s) (m_root s1) -> m_stack s1 = m_stack s -> calmly s1 r -> calmly s r.
Proof. intros H1 H2. destruct r; simpl; auto; intros [H3 H4]; split; try congruence; eapply dims_trans; eauto. Qed.

Lemma calmly_finish pi s : calmly s (Model.finish E pi s).
Proof.
  unfold Model.finish, at_node. destruct (get pi (m_root s)) as [p|] eqn:Hg; [|exact I].
  assert (Hu : forall q, dims p q -> calmly s (ROk (upd s pi q))).
  { intros q Hq. split; [|reflexivity]. simpl. eapply dims_put; eauto. }
  assert (Hu2 : forall q e, dims p q -> calmly s (RThrow e (upd s pi q))).
  { intros q e Hq. apply (Hu q Hq). }
  assert (Hf : dims p (set_set false p)) by apply dims_set_false.
  destruct p as [b ty v cb|b sd st vals e cb|b st key vals e ecb cb|b k v ms ig ign cb|b st v ty tm cur ms ig cb|i].
  - apply calmly_cb, no_dims.
  - destruct st; apply calmly_cb; auto using no_dims, pops_dims.
  - apply calmly_cb, pops_dims.
  - destruct (b_empty b); [auto|]. destruct k.
    + destruct (check_members E ms); [auto|]. apply calmly_cb, pops_dims.
    + pose proof (dims_set_values E ms) as Hv. destruct (set_values E ms) as [ms' [e|vs]]; cbn [fst] in Hv.
      * apply Hu2. eapply dims_trans; [|apply dims_set_false]. apply dims_obj; auto using loc_refl.
      * eapply calmly_trans; [| |apply calmly_cb, no_dims]; [|reflexivity]. simpl. eapply dims_put; [exact Hg|]. apply dims_obj; auto using loc_refl.
    + destruct (check_members E ms); [auto|]. apply calmly_cb, cust_dims.
  - destruct (b_empty b); [auto|]. destruct st.
    + pose proof (dims_uni_set E cur ms) as Hv. destruct (uni_set_value E cur ms) as [ms' [e|vs]]; cbn [fst] in Hv.
      * apply Hu2. eapply dims_trans; [|apply dims_set_false]. apply dims_uni; auto using loc_refl.
      * eapply calmly_trans; [| |apply calmly_cb, no_dims]; [|reflexivity]. simpl. eapply dims_put; [exact Hg|]. apply dims_uni; auto using loc_refl.
    + destruct (uni_check cur ms); [auto|]. apply calmly_cb, pops_dims.
  - split; auto using dims_refl.
Qed.
End Calmly.

(** ** [calm] is kept by everything *)
Section Calm.
Variable E : env.

Definition calm_after (r : res) : Prop := match r with ROk s | RThrow _ s => calm (m_root s) | _ => True end.
Definition calm_pre (c : call) (s : mstate) : Prop := calm (m_root s) /\
  match c with CEnd pi => forall p, get pi (m_root s) = Some p -> started p = false | _ => True end.

Lemma calm_bind r k : calm_after r -> (forall s, r = ROk s -> calm (m_root s) -> calm_after (k s)) -> calm_after (bind r k).
Proof. destruct r; simpl; auto. Qed.
Lemma calm_at s pi k : (forall p, get pi (m_root s) = Some p -> calm_after (k p)) -> calm_after (at_node s pi k).
Proof. unfold at_node. destruct (get pi (m_root s)); simpl; auto. Qed.
Lemma calm_deref d r : calm_after r -> calm_after (deref g d r).
Proof. intros H. unfold deref. destruct d as [x|]; simpl; auto. destruct (Nat.eqb x g); simpl; auto. Qed.
Lemma calm_upd s pi p q : calm (m_root s) -> get pi (m_root s) = Some p -> dims p q -> calm (m_root (upd s pi q)).
Proof. intros H Hg Hd. eapply calm_dims; [exact H|]. simpl. eapply dims_put; eauto. Qed.
Lemma calm_calmly s r : calm (m_root s) -> calmly s r -> calm_after r.
Proof. destruct r; simpl; auto; intros H [K _]; eapply calm_dims; eauto. Qed.

Lemma calm_enter s pi b sd st vals e cb : calm (m_root s) -> get pi (m_root s) = Some (PArr b sd st vals e cb) ->
  calm (m_root (upd s pi (set_not_empty (PArr b sd st vals (set_disp (b_disp b) e) cb)))).
Proof.
  intros H Hg. pose proof (calm_get _ H Hg) as Hp. simpl. eapply calm_put; [exact Hg|exact I|exact H|].
  apply calm_node; [apply (calm_own Hp)|]. intros [] q Hq; try discriminate. injection Hq as <-. apply calm_set_disp. apply (@calm_child _ Elem e Hp). reflexivity.
Qed.

Variable rec : call -> mstate -> res.
Hypothesis IH : forall c s, calm_pre c s -> calm_after (rec c s).
Hypothesis Hle : forall c s, lex g s (rec c s).

Lemma calm_pop_if d s : calm (m_root s) -> calm_after (pop_if_disp g rec d s).
Proof. intros H. unfold pop_if_disp. destruct d; [|exact H]. apply calm_deref, IH. split; auto. Qed.

Lemma calm_member A pi p (ms : list (mspec * A)) ign nm s : calm (m_root s) -> get pi (m_root s) = Some p -> calm_after (on_member E g pi p ms ign nm s).
Proof.
  intros H Hg. pose proof (@calm_upd s pi p _ H Hg (dims_not_empty p)) as Hu. unfold on_member.
  destruct (lookup nm ms); [apply calm_deref; exact Hu|]. destruct ign; [apply calm_deref|]; exact Hu.
Qed.

Lemma calm_call c s : calm_pre c s -> calm_after (call_body E g rec c s).
Proof.
  intros [H Hx]. destruct c as [|t|pi t|pi|pi]; cbn [call_body].
  - unfold body_pop. destruct (m_stack s) as [|x [|q r]]; auto. apply IH. split; auto.
  - unfold body_disp. destruct (m_stack s) as [|q r]; auto. apply IH. split; auto.
  - unfold body_on. apply calm_at. intros p Hg.
    assert (Hnull : calm_after (on_null g rec pi p s)) by (apply calm_pop_if; eapply calm_upd; eauto using dims_reset).
    assert (Hend : forall q, dims p q -> started q = false -> calm_after (rec (CEnd pi) (upd s pi q))).
    { intros q Hd Hs. apply IH. split; [eapply calm_upd; eauto|]. intros r Hr. cbn [upd m_root] in Hr.
      erewrite get_put_same in Hr; [|exact Hg|apply (dims_loc Hd)]. injection Hr as <-. exact Hs. }
    assert (Hend0 : started p = false -> calm_after (rec (CEnd pi) s)).
    { intros Hs. apply IH. split; auto. intros r Hr. rewrite Hg in Hr. injection Hr as <-. exact Hs. }
    assert (Hreset : calm_after (ROk (upd s pi (reset p)))) by (eapply calm_upd; eauto using dims_reset).
    assert (Helem : forall u, calm_after (rec (COn (pi ++ [Elem])%list u) s)) by (intros u; apply IH; split; auto).
    destruct p as [b ty v cb|b sd st vals e cb|b st key vals e ecb cb|b k v ms ig ign cb|b st v ty tm cur ms ig cb|i].
    + unfold on_val. destruct t; auto. destruct (takes_scalar ty x); auto. apply Hend; auto. apply dims_kids; [unfold loc; simpl; auto|reflexivity].
    + assert (Henter : calm_after (arr_enter g rec pi (PArr b sd st vals e cb) t s)).
      { unfold arr_enter. apply calm_deref, IH. split; auto. apply (@calm_enter s pi b sd st vals e cb H Hg). }
      unfold on_arr. destruct t; auto.
      * destruct sd; auto.
      * destruct sd; auto. apply calm_bind; auto. intros s1 _ H1. apply calm_at. intros p1 Hp1. apply IH. split; auto. eapply calm_upd; eauto using dims_not_empty.
      * destruct sd; auto.
      * destruct sd; auto. cbn [reset calm_after upd m_root].
        pose proof (calm_dims (calm_get _ H Hg) (dims_reset _)) as Hcr. cbn [reset] in Hcr.
        eapply calm_put; [exact Hg|exact I|exact H|]. apply calm_node; [reflexivity|].
        intros [] c Hq; try discriminate. injection Hq as <-. apply (@calm_child _ Elem (reset e) Hcr). reflexivity.
      * apply Hend; auto. apply dims_kids; [|reflexivity]. unfold loc; simpl. repeat split; auto. discriminate.
    + unfold on_map. destruct t; auto. apply calm_deref. cbn [calm_after push set_stack m_root].
      eapply calm_upd; [exact H|exact Hg|]. apply dims_kids; [unfold loc; simpl; auto|reflexivity].
    + unfold on_obj. destruct t; auto. apply calm_member; auto.
    + unfold on_uni. destruct t; auto.
      * destruct (takes_scalar ty x); auto. apply calm_bind.
        -- apply calm_member; [exact Hreset|]. simpl. eapply get_put_same; [exact Hg|exact I].
        -- intros s2 _ H2. apply calm_at. intros p2 Hp2. destruct p2; auto. destruct (lookup x ms); auto. cbn [calm_after].
           eapply calm_upd; [exact H2|exact Hp2|]. apply dims_uni; auto using loc_refl, dims_ms_refl.
      * destruct (String.eqb tm ""); auto.
      * destruct (String.eqb tm ""); auto. destruct (String.eqb k tm); auto.
    + assert (Hd : forall l, dims (PIgn i) (PIgn (mkI (ig_b i) l))) by (intros l; apply dims_kids; [unfold loc; simpl; auto|reflexivity]).
      assert (Hig : forall l, calm_after (ROk (upd s pi (PIgn (mkI (ig_b i) l))))) by (intros l; eapply calm_upd; eauto).
      unfold on_ign. destruct t; auto.
      * destruct (ig_st i); auto.
      * destruct (ig_st i) as [|[] r]; auto.
      * destruct (ig_st i) as [|[] r]; auto. destruct r; auto. 
      * destruct (ig_st i) as [|[] r]; auto. destruct r; auto.
  - unfold body_end. apply calm_at. intros p Hg. apply calm_bind.
    + eapply calm_calmly; [|apply calmly_finish]. simpl. eapply calm_put; [exact Hg|destruct p; exact I|exact H|]. apply calm_node.
      * intros K. specialize (Hx p Hg). destruct p; simpl in *; congruence.
      * intros st c Hq. apply (@calm_child p st c (calm_get _ H Hg)). destruct p; exact Hq.
    + intros s2 _ H2. apply calm_at. intros p2 _. apply calm_pop_if; auto.
  - unfold body_child. apply calm_at. intros p Hg.
    destruct p as [b ty v cb|b sd st vals e cb|b st key vals e ecb cb|b k v ms ig ign cb|b st v ty tm cur ms ig cb|i]; auto.
    + destruct st; auto. destruct (pop_value e) as [[v e']|] eqn:Hp; auto.
      assert (Hd : forall vals', calm (m_root (upd s pi (PArr b sd true vals' e' cb)))).
      { intros vals'. eapply calm_upd; eauto. apply dims_node; [unfold loc; simpl; auto|]. intros []; simpl; auto. eapply dims_pop_value; eauto. }
      destruct (e_store E v); apply Hd.
    + apply calm_bind; [eapply calm_calmly; [exact H|apply calmly_cb, pops_dims]|]. intros s1 _ H1. destruct st; auto. apply calm_at. intros p1 Hg1.
      destruct p1 as [| |b1 st1 key1 vals1 e1 ecb1 cbb| | |]; auto. destruct (pop_value e1) as [[v e']|] eqn:Hp; auto.
      assert (Hd : forall vals', calm (m_root (upd s1 pi (PMap b1 st1 key1 vals' e' ecb1 cbb)))).
      { intros vals'. eapply calm_upd; eauto. apply dims_node; [unfold loc; simpl; auto|]. intros []; simpl; auto. eapply dims_pop_value; eauto. }
      destruct (e_store E v); apply Hd.
    + apply calm_bind.
      * apply IH. split; auto. intros q Hq. rewrite Hg in Hq. injection Hq as <-. reflexivity.
      * intros s1 _ H1. destruct (String.eqb tm ""); auto. apply calm_at. intros p1 _. apply calm_deref, IH. split; auto.
Qed.
End Calm.

Lemma calm_exec E n : forall c s, calm_pre c s -> calm_after (exec E g n c s).
Proof.
  induction n as [|n IH]; intros c s H; [exact I|]. cbn [exec]. apply body_cases.
  - intros E' _ _ _. apply calm_call; auto.
  - intros x s' Hin. destruct H as [H _]. cbn [calm_after]. apply (@faults_cases g (fun s' => calm (m_root s')) c s s' Hin).
    + auto.
    + intros. eapply calm_upd; eauto using dims_not_empty.
    + intros pi t b st vals e cb _ _ Hg Hd. rewrite <- Hd. apply (@calm_enter s pi b true st vals e cb H Hg).
    + intros. cbn [push set_stack m_root]. eapply calm_upd; eauto using dims_not_empty.
    + intros. eapply calm_upd; eauto. eapply dims_trans; [apply dims_reset|apply dims_not_empty].
    + intros. cbn [push set_stack m_root]. eapply calm_upd; eauto. eapply dims_trans; [apply dims_reset|apply dims_not_empty].
Qed.

Lemma calm_run E ts : forall s, calm (m_root s) -> calm_after (run E g ts s).
Proof.
  induction ts as [|t ts IH]; intros s H; [exact H|]. cbn [run]. apply calm_bind; [|auto].
  apply calm_exec. split; auto.
Qed.

Section Twins.
Variables cb1 cb2 : cbid -> list event -> parser -> cbarg -> cbout.
Variable f : spec_float -> string.
Hypothesis Hcb : forall c l T a, due c T a -> cb1 c l T a = cb2 c l T a.

Section Body.
Variable sto : value -> option exn.
Variable al : call -> mstate -> option fault.
Notation E1 := (mkEnv cb1 f sto al).
Notation E2 := (mkEnv cb2 f sto al).

Lemma twin_cb c a eff msg s : (forall c', c = Some c' -> due c' (m_root s) a) ->
  run_cb E1 c a eff msg s = run_cb E2 c a eff msg s.
Proof.
  intros Hc. unfold run_cb. destruct c as [c|]; [|reflexivity]. cbn [e_cb]. rewrite <- (Hcb _ (Hc c eq_refl)). reflexivity.
Qed.

Lemma twin_finish pi s p : get pi (m_root s) = Some p -> shut pi (m_root s) -> is_set p = true ->
  Model.finish E1 pi s = Model.finish E2 pi s.
Proof.
  intros Hg Hs Hp. unfold Model.finish. rewrite !(at_some _ _ _ Hg).
  destruct p as [b ty v cb|b sd st vals e cb|b st key vals e ecb cb|b k v ms ig ign cb|b st v ty tm cur ms ig cb|i].
  - apply twin_cb. intros c ->. eapply due_value; eauto; reflexivity.
  - destruct st; apply twin_cb; intros c ->; [eapply due_value|eapply due_self]; eauto; reflexivity.
  - apply twin_cb. intros c ->. eapply due_self; eauto; reflexivity.
  - destruct (b_empty b); [reflexivity|].
    change (check_members E2 ms) with (check_members E1 ms). change (set_values E2 ms) with (set_values E1 ms). destruct k.
    + destruct (check_members E1 ms); [reflexivity|]. apply twin_cb. intros c ->. eapply due_self; eauto; reflexivity.
    + destruct (set_values E1 ms) as [ms' [e|vs]]; [reflexivity|].
      apply twin_cb. intros c ->. eapply due_value with (pi := pi).
      * simpl. eapply get_put_same; [exact Hg|exact I].
      * simpl. eapply shut_put; eauto. exact I.
      * reflexivity.
      * exact Hp.
      * reflexivity.
    + destruct (check_members E1 ms); [reflexivity|]. apply twin_cb. intros c ->. eapply due_custom; eauto; reflexivity.
  - destruct (b_empty b); [reflexivity|].
    change (uni_set_value E2 cur ms) with (uni_set_value E1 cur ms). destruct st.
    + destruct (uni_set_value E1 cur ms) as [ms' [e|vs]]; [reflexivity|].
      apply twin_cb. intros c ->. eapply due_value with (pi := pi).
      * simpl. eapply get_put_same; [exact Hg|exact I].
      * simpl. eapply shut_put; eauto. exact I.
      * reflexivity.
      * exact Hp.
      * reflexivity.
    + destruct (uni_check cur ms); [reflexivity|]. apply twin_cb. intros c ->. eapply due_self; eauto; reflexivity.
  - reflexivity.
Qed.

(** ** The calls *)

Definition wof (c : call) : bool := match c with CDisp t | COn _ t => is_key t | _ => false end.

Definition vpre (c : call) (s : mstate) : Prop :=
  calm (m_root s) /\ nested (m_stack s) /\
  match c with
  | CDisp t => topped (begins t) s
  | COn pi t => under pi (m_stack s) /\ shut pi (m_root s) /\ (begins t = false -> resting g pi (m_root s))
  | CEnd pi => under pi (m_stack s) /\ shut pi (m_root s) /\ (forall p, get pi (m_root s) = Some p -> started p = false)
  | CPop => topped true s
  | CChild pi => topped false s /\ (forall p, get pi (m_root s) = Some p ->
      match p with
      | PMap _ _ _ _ _ _ _ | PUni _ _ _ _ _ _ _ _ _ => under pi (m_stack s) /\ shut pi (m_root s) /\ is_set p = false
      | _ => True
      end)
  end.

Definition same (w : bool) (r1 r2 : res) : Prop := r1 = r2 /\ settled r1 w.

Lemma same_refl w r : settled r w -> same w r r.
Proof. split; auto. Qed.

Lemma same_bind w1 w r1 r2 k1 k2 : same w1 r1 r2 -> (forall s, r1 = ROk s -> okst w1 s -> same w (k1 s) (k2 s)) ->
  same w (bind r1 k1) (bind r2 k2).
Proof. intros [<- H1] H2. destruct r1; simpl; auto; split; auto. Qed.

Lemma same_deref w d r1 r2 : (d = Some g -> same w r1 r2) -> same w (deref g d r1) (deref g d r2).
Proof.
  intros H. unfold deref. destruct d as [x|]; [|split; [reflexivity|exact I]].
  destruct (Nat.eqb x g) eqn:Hx; [apply H; apply Nat.eqb_eq in Hx; congruence|split; [reflexivity|exact I]].
Qed.

Variables rec1 rec2 : call -> mstate -> res.
Hypothesis Hrec : forall c s, vpre c s -> same (wof c) (rec1 c s) (rec2 c s).
Hypothesis Hle : forall c s, lex g s (rec1 c s).

Lemma same_pop_if d s : okst true s -> (d = None -> okst false s) -> same false (pop_if_disp g rec1 d s) (pop_if_disp g rec2 d s).
Proof.
  intros H1 H2. unfold pop_if_disp. destruct d as [x|]; [|apply same_refl; apply H2; reflexivity].
  apply same_deref. intros _. apply (Hrec (c := CPop)). destruct H1 as (A & B & C). split; auto.
Qed.

(** What the updates of the node at hand give. *)
Section Node.
Variables (pi : path) (s : mstate) (p : parser).
Hypothesis Hg : get pi (m_root s) = Some p.
Hypothesis Hc : calm (m_root s).
Hypothesis Hn : nested (m_stack s).
Hypothesis Hu : under pi (m_stack s).
Hypothesis Hs : shut pi (m_root s).

Definition easy (q : parser) : Prop := is_set q = false \/ disp_of q <> Some g \/ exists i, q = PIgn i.

Lemma node_ok w q : same_kind p q -> calm q -> (w = false -> easy q) -> okst w (upd s pi q).
Proof.
  intros Hk Hq Hw. apply okst_at with (pi := pi); auto.
  - eapply calm_put; eauto.
  - eapply shut_put; eauto.
  - intros Ew r Hr. cbn [upd m_root] in Hr. erewrite get_put_same in Hr; [|exact Hg|exact Hk]. injection Hr as <-. exact (Hw Ew).
Qed.

Lemma node_calm : calm p.
Proof. eapply calm_get; eauto. Qed.

Lemma node_dims w q : dims p q -> (w = false -> easy q) -> okst w (upd s pi q).
Proof. intros Hd. intros Hw. apply node_ok; [apply (dims_loc Hd)|exact (calm_dims node_calm Hd)|exact Hw]. Qed.

Lemma node_id w : (w = false -> easy p) -> okst w s.
Proof. intros Hw. apply okst_at with (pi := pi); auto. intros Ew q Hq. rewrite Hg in Hq. injection Hq as <-. exact (Hw Ew). Qed.

Lemma node_throw w t : same w (throw_unexpected t s) (throw_unexpected t s).
Proof. apply same_refl. apply node_id. discriminate. Qed.

Lemma node_end q : dims p q -> started q = false -> same false (rec1 (CEnd pi) (upd s pi q)) (rec2 (CEnd pi) (upd s pi q)).
Proof.
  intros Hd Hst. apply (Hrec (c := CEnd pi)). destruct (@node_dims true q Hd) as (A & B & _); [discriminate|].
  split; auto. split; auto. split; [exact Hu|]. split; [eapply shut_put; eauto; apply (dims_loc Hd)|].
  intros r Hr. cbn [upd m_root] in Hr. erewrite get_put_same in Hr; [|exact Hg|apply (dims_loc Hd)]. injection Hr as <-. exact Hst.
Qed.

Lemma node_end0 : started p = false -> same false (rec1 (CEnd pi) s) (rec2 (CEnd pi) s).
Proof.
  intros Hst. apply (Hrec (c := CEnd pi)). split; auto. split; auto. split; auto. split; auto.
  intros r Hr. rewrite Hg in Hr. injection Hr as <-. exact Hst.
Qed.

Lemma reset_unset q : is_set (reset q) = false.
Proof. destruct q; reflexivity. Qed.

Lemma node_null : same false (on_null g rec1 pi p s) (on_null g rec2 pi p s).
Proof.
  unfold on_null. pose proof (dims_reset p) as Hd.
  apply same_pop_if; intros; apply node_dims; auto; intros _; left; apply reset_unset.
Qed.

Lemma node_push q st w : same_kind p q -> calm q -> is_set q = false -> w = true -> okst w (push (upd s pi q) (pi ++ [st])%list).
Proof.
  intros Hk Hq Hset ->. assert (Hok : okst true (upd s pi q)) by (apply node_ok; auto; discriminate).
  destruct Hok as (A & B & _). split; [exact A|]. split; [cbn [push set_stack m_stack upd]; apply nested_push; auto|].
  unfold topped. cbn [push set_stack m_stack upd m_root]. split; [|discriminate].
  apply shut_snoc; [eapply shut_put; eauto|]. intros r Hr. erewrite get_put_same in Hr; [|exact Hg|exact Hk]. injection Hr as <-. exact Hset.
Qed.

Lemma node_member (ms : list (mspec * parser)) ign nm : (disp_of p = Some g -> is_set p = false) ->
  same true (on_member E1 g pi p ms ign nm s) (on_member E2 g pi p ms ign nm s).
Proof.
  intros Hset. assert (Hk : forall st, disp_of p = Some g -> okst true (push (upd s pi (set_not_empty p)) (pi ++ [st])%list)).
  { intros st Hd. apply node_push; auto.
    - apply (dims_loc (dims_not_empty p)).
    - eapply calm_dims; [apply node_calm|apply dims_not_empty].
    - specialize (Hset Hd). destruct p; exact Hset. }
  unfold on_member. destruct (lookup nm ms).
  - apply same_deref. intros Hd. apply same_refl. apply Hk; auto.
  - destruct ign; [apply same_deref; intros Hd; apply same_refl; apply Hk; auto|].
    apply same_refl. apply node_dims; [apply dims_not_empty|discriminate].
Qed.
End Node.

Lemma twin_on pi t s : vpre (COn pi t) s -> same (is_key t) (body_on E1 g rec1 pi t s) (body_on E2 g rec2 pi t s).
Proof.
  intros (Hc & Hn & Hu & Hs & Hr). unfold body_on, at_node.
  destruct (get pi (m_root s)) as [p|] eqn:Hg; [|split; [reflexivity|exact I]].
  assert (Hb : begins t = false -> easy p) by (intros Ht; exact (Hr Ht p Hg)).
  assert (Hset : begins t = false -> disp_of p = Some g -> (forall i, p <> PIgn i) -> is_set p = false).
  { intros Ht Hd Hi. destruct (Hb Ht) as [H|[H|[i H]]]; auto; [contradiction|destruct (Hi i H)]. }
  pose proof (@node_throw pi s p Hg Hc Hn Hu Hs) as Hthrow.
  pose proof (@node_null pi s p Hg Hc Hn Hu Hs) as Hnull.
  pose proof (@node_end0 pi s p Hg Hc Hn Hu Hs) as Hend0.
  assert (Hreset : same false (ROk (upd s pi (reset p))) (ROk (upd s pi (reset p)))).
  { apply same_refl. apply (@node_dims pi _ _ Hg); auto using dims_reset. intros _. left. apply reset_unset. }
  destruct p as [b ty v cb|b sd st vals e cb|b st key vals e ecb cb|b k v ms ig ign cb|b st v ty tm cur ms ig cb|i].
  - unfold on_val. destruct t; auto. destruct (takes_scalar ty x); [|apply Hthrow].
    apply (@node_end pi _ _ Hg); auto. apply dims_kids; [unfold loc; simpl; auto|reflexivity].
  - assert (Hown : sd = true -> b_set b = false) by exact (calm_own (calm_get _ Hc Hg)).
    assert (Hce : calm e) by (apply (@calm_child _ Elem e (calm_get _ Hc Hg)); reflexivity).
    assert (Helem : sd = true -> begins t = true -> same (is_key t) (rec1 (COn (pi ++ [Elem])%list t) s) (rec2 (COn (pi ++ [Elem])%list t) s)).
    { intros Hsd Ht. apply (Hrec (c := COn (pi ++ [Elem])%list t)). split; auto. split; auto. split; [apply under_app; auto|]. split.
      - apply shut_snoc; auto. intros q Hq. rewrite Hg in Hq. injection Hq as <-. apply Hown; auto.
      - intros K. congruence. }
    assert (Henter : sd = true -> begins t = true -> same (is_key t) (arr_enter g rec1 pi (PArr b sd st vals e cb) t s) (arr_enter g rec2 pi (PArr b sd st vals e cb) t s)).
    { intros Hsd Ht. unfold arr_enter. apply same_deref. intros Hd.
      apply (Hrec (c := COn (pi ++ [Elem])%list t)).
      set (q := set_not_empty (PArr b sd st vals (set_disp (b_disp b) e) cb)).
      assert (Hok : okst true (push (upd s pi q) (pi ++ [Elem])%list)).
      { apply (@node_push pi _ _ Hg Hc Hn Hu Hs); [exact I| |apply Hown; auto|reflexivity]. apply calm_node.
        - intros _. apply Hown; auto.
        - intros [] c Hq; try discriminate. injection Hq as <-. apply calm_set_disp; auto. }
      destruct Hok as (A & B & C). unfold topped in C. cbn [push set_stack m_stack] in C. destruct C as [C _].
      split; auto. split; auto. split; [apply under_top|]. split; [exact C|]. intros K. congruence. }
    unfold on_arr. destruct t; try apply Hthrow.
    + destruct sd; [apply Helem; auto|apply Hnull].
    + destruct sd; [|apply Hthrow]. eapply same_bind; [apply Helem; auto|]. intros s1 Es1 (C1 & C2 & C3).
      pose proof (Hle (COn (pi ++ [Elem])%list (TSc x)) s) as Hl. rewrite Es1 in Hl. cbn [lex] in Hl.
      destruct (le_get pi Hl Hg) as (p1 & Hp1 & Hlp). unfold at_node. rewrite Hp1.
      apply (Hrec (c := CChild pi)).
      assert (Hd1 : dims (m_root s1) (m_root (upd s1 pi (set_not_empty p1)))) by (simpl; eapply dims_put; eauto using dims_not_empty).
      assert (Hok : okst false (upd s1 pi (set_not_empty p1))) by (eapply okst_dims; [split; [exact C1|split; [exact C2|exact C3]]|exact Hd1|reflexivity]).
      destruct Hok as (D1 & D2 & D3). split; auto. split; auto. split; auto. intros q Hq.
      cbn [upd m_root] in Hq. erewrite get_put_same in Hq; [|exact Hp1|apply (dims_loc (dims_not_empty p1))]. injection Hq as <-.
      inversion Hlp; subst. exact I.
    + destruct sd; [apply Henter; auto|apply Hthrow].
    + destruct sd; [apply Henter; auto|]. apply same_refl. cbn [reset].
      pose proof (calm_dims (calm_get _ Hc Hg) (dims_reset _)) as Hcr. cbn [reset] in Hcr.
      apply (@node_ok pi _ _ Hg Hc Hn Hu Hs); [exact I| |intros _; left; reflexivity].
      apply calm_node; [reflexivity|]. intros [] c Hq; try discriminate. injection Hq as <-. apply (@calm_child _ Elem (reset e) Hcr). reflexivity.
    + apply (@node_end pi _ _ Hg); auto. apply dims_kids; [unfold loc; simpl; auto|reflexivity]. split; auto. split; auto. split; auto. discriminate.
  - unfold on_map. destruct t; try apply Hthrow; auto.
    apply same_deref. intros Hd. apply same_refl.
    assert (Hx : b_set b = false) by (apply Hset; auto; discriminate).
    apply (@node_push pi _ _ Hg Hc Hn Hu Hs); [exact I| |exact Hx|reflexivity]. apply calm_node; [discriminate|]. intros [] c Hq; try discriminate. injection Hq as <-.
    apply (@calm_child _ Elem e (calm_get _ Hc Hg)). reflexivity.
  - unfold on_obj. destruct t; try apply Hthrow; auto.
    apply (@node_member pi _ _ Hg); auto. intros Hd. apply Hset; auto. discriminate.
  - unfold on_uni. destruct t; try apply Hthrow; auto.
    + destruct (takes_scalar ty x); [|apply Hthrow]. set (p1 := reset (PUni b st v ty tm cur ms ig cb)).
      assert (Hd1 : dims (PUni b st v ty tm cur ms ig cb) p1) by apply dims_reset.
      destruct (@node_dims pi _ _ Hg Hc Hn Hu Hs true _ Hd1) as (A & B & _); [discriminate|].
      assert (Hg1 : get pi (m_root (upd s pi p1)) = Some p1) by (simpl; eapply get_put_same; [exact Hg|exact I]).
      assert (Hs1 : shut pi (m_root (upd s pi p1))) by (simpl; eapply shut_put; [exact Hg|exact I|exact Hs]).
      cbn [is_key]. apply same_bind with (w1 := true).
      * apply (@node_member pi _ _ Hg1); auto.
      * (* the state after on_member: a pushed member *)
        intros s2 Es2 _. unfold on_member in Es2. destruct (lookup x ms) as [j|] eqn:Hlk; [|discriminate].
        unfold deref in Es2. destruct (disp_of p1) as [d|] eqn:Hdp; [|discriminate]. destruct (Nat.eqb d g); [|discriminate].
        assert (Es3 : s2 = push (upd (upd s pi p1) pi (set_not_empty p1)) (pi ++ [Mem j])%list) by congruence. clear Es2. subst s2. unfold at_node. cbn [push set_stack m_root upd].
        assert (Hg2 : get pi (m_root (upd (upd s pi p1) pi (set_not_empty p1))) = Some (set_not_empty p1)).
        { simpl. eapply get_put_same; [exact Hg1|exact I]. }
        cbn [upd m_root] in Hg2. rewrite Hg2. unfold p1. cbn [reset set_not_empty with_base base_of].
        apply same_refl. cbn [settled].
        set (q := PUni (mkB (b_disp b) false false) st (if st then dflt (PUni b st v ty tm cur ms ig cb) else v) ty tm j (map (fun mp => (fst mp, reset (snd mp))) ms) (reset_ig ig) cb).
        assert (Hdq : dims (PUni b st v ty tm cur ms ig cb) q).
        { eapply dims_trans; [exact Hd1|]. apply dims_kids; [|reflexivity]. unfold loc; simpl; auto. }
        assert (Hpp : put pi q (put pi (set_not_empty p1) (put pi p1 (m_root s))) = put pi q (m_root s)).
        { rewrite (put_put pi (put pi p1 (m_root s)) q (set_not_empty p1) Hg1 I I). apply (put_put pi (m_root s) q p1 Hg I I). }
        change (okst false (mkS (put pi q (put pi (set_not_empty p1) (put pi p1 (m_root s)))) ((pi ++ [Mem j])%list :: m_stack s) (m_log s))).
        rewrite Hpp.
        assert (Hok : okst true (push (upd s pi q) (pi ++ [Mem j])%list)).
        { apply (@node_push pi _ _ Hg Hc Hn Hu Hs); [exact I| |reflexivity|reflexivity]. exact (calm_dims (calm_get _ Hc Hg) Hdq). }
        destruct Hok as (D1 & D2 & D3). split; [exact D1|]. split; [exact D2|]. unfold topped in *. cbn [push set_stack m_stack m_root upd] in *.
        destruct D3 as [D3 _]. split; [exact D3|]. intros _ r Hrr. rewrite get_app in Hrr.
        erewrite get_put_same in Hrr; [|exact Hg|exact I]. unfold q in Hrr. cbn [get child] in Hrr. rewrite nth_error_map in Hrr.
        destruct (nth_error ms j) as [mp|]; [|discriminate]. cbn [option_map snd] in Hrr. injection Hrr as <-. left. apply reset_unset.
    + destruct (String.eqb tm ""); auto. apply same_refl, (@node_id pi _ _ Hg); auto; discriminate.
    + destruct (String.eqb tm ""); [apply same_refl, (@node_id pi _ _ Hg); auto; discriminate|].
      destruct (String.eqb k tm); apply same_refl, (@node_id pi _ _ Hg); auto; discriminate.
  - assert (He : easy (PIgn i)) by (right; right; eauto). unfold on_ign. destruct t; auto.
    + destruct (ig_st i); [auto|]. apply same_refl, (@node_id pi _ _ Hg); auto.
    + apply same_refl. apply (@node_dims pi _ _ Hg); auto; [|right; right; eauto]. apply dims_kids; [unfold loc; simpl; auto|reflexivity].
    + destruct (ig_st i) as [|[] ?]; auto; try apply Hthrow. apply same_refl, (@node_id pi _ _ Hg); auto.
    + destruct (ig_st i) as [|[] r]; auto; try apply Hthrow.
      assert (Hd : dims (PIgn i) (PIgn (mkI (ig_b i) r))) by (apply dims_kids; [unfold loc; simpl; auto|reflexivity]).
      destruct r; [apply (@node_end pi _ _ Hg); auto|]. apply same_refl. apply (@node_dims pi _ _ Hg); auto. right; right; eauto.
    + apply same_refl. apply (@node_dims pi _ _ Hg); auto; [|right; right; eauto]. apply dims_kids; [unfold loc; simpl; auto|reflexivity].
    + destruct (ig_st i) as [|[] r]; auto; try apply Hthrow.
      assert (Hd : dims (PIgn i) (PIgn (mkI (ig_b i) r))) by (apply dims_kids; [unfold loc; simpl; auto|reflexivity]).
      destruct r; [apply (@node_end pi _ _ Hg); auto|]. apply same_refl. apply (@node_dims pi _ _ Hg); auto. right; right; eauto.
Qed.

Lemma nested_up top q r T : nested (top :: q :: r) -> shut top T ->
  shut q T /\ (forall x, get q T = Some x -> is_set x = false).
Proof.
  intros [(n & rel & ->) _] Hs. split; [eapply shut_prefix; eauto|]. intros x Hx. eapply Hs; eauto.
Qed.

Lemma twin_pop s : vpre CPop s -> same false (body_pop rec1 s) (body_pop rec2 s).
Proof.
  intros (Hc & Hn & Ht). unfold body_pop, topped in *. destruct (m_stack s) as [|top r] eqn:Hs.
  - apply same_refl. split; auto. split; [rewrite Hs; exact I|]. unfold topped. rewrite Hs. exact I.
  - destruct Ht as [Ht _]. destruct r as [|q r].
    + apply same_refl. split; [exact Hc|split; exact I].
    + destruct (nested_up Hn Ht) as [Hq Hq2]. apply nested_tail in Hn. apply (Hrec (c := CChild q)).
      split; [exact Hc|]. split; [exact Hn|]. split.
      * unfold topped. cbn [set_stack m_stack m_root]. split; [exact Hq|]. intros _ x Hx. left. auto.
      * cbn [set_stack m_stack m_root]. intros x Hx. pose proof (Hq2 x Hx) as Hx2.
        destruct x; auto; (split; [apply under_top|split; auto]).
Qed.

Lemma twin_disp t s : vpre (CDisp t) s -> same (is_key t) (body_disp rec1 t s) (body_disp rec2 t s).
Proof.
  intros (Hc & Hn & Ht). unfold body_disp, topped in *. destruct (m_stack s) as [|q r] eqn:Hs.
  - apply same_refl. split; auto. split; [rewrite Hs; exact I|]. unfold topped. rewrite Hs. exact I.
  - destruct Ht as [Ht1 Ht2]. apply (Hrec (c := COn q t)). split; auto. rewrite Hs. split; auto. split; [apply under_top|]. auto.
Qed.

Lemma twin_end pi s : vpre (CEnd pi) s -> same false (body_end E1 g rec1 pi s) (body_end E2 g rec2 pi s).
Proof.
  intros (Hc & Hn & Hu & Hs & Hst). unfold body_end, at_node. destruct (get pi (m_root s)) as [p|] eqn:Hg; [|split; [reflexivity|exact I]].
  set (s1 := upd s pi (set_set true p)).
  assert (Hk : same_kind p (set_set true p)) by (destruct p; exact I).
  assert (Hg1 : get pi (m_root s1) = Some (set_set true p)) by (simpl; eapply get_put_same; eauto).
  assert (Hs1 : shut pi (m_root s1)) by (simpl; eapply shut_put; eauto).
  assert (Hc1 : calm (m_root s1)).
  { simpl. eapply calm_put; eauto. apply calm_node.
    - intros K. specialize (Hst p eq_refl). destruct p; simpl in *; congruence.
    - intros st c Hq. apply (@calm_child p st c (calm_get _ Hc Hg)). destruct p; exact Hq. }
  rewrite <- (@twin_finish pi s1 _ Hg1 Hs1) by (destruct p; reflexivity). pose proof (calmly_finish E1 pi s1) as F2.
  assert (Hx : forall s2, dims (m_root s1) (m_root s2) -> m_stack s2 = m_stack s1 ->
    calm (m_root s2) /\ nested (m_stack s2) /\ under pi (m_stack s2) /\ shut pi (m_root s2)).
  { intros s2 D1 D2. rewrite D2. split; [eapply calm_dims; eauto|]. split; [exact Hn|]. split; [exact Hu|]. eapply shut_dims; eauto. }
  destruct (Model.finish E1 pi s1) as [s2|e s2|u|]; cbn [bind]; cbn [calmly] in F2; try (split; [reflexivity|exact I]).
  - destruct (Hx s2 (proj1 F2) (proj2 F2)) as (X1 & X2 & X3 & X4). destruct (get pi (m_root s2)) as [p2|] eqn:Hg2; [|split; [reflexivity|exact I]].
    apply same_pop_if.
    + apply okst_at with (pi := pi); auto. discriminate.
    + intros Hd. apply okst_at with (pi := pi); auto. intros _ q Hq. rewrite Hg2 in Hq. injection Hq as <-. right. left. rewrite Hd. discriminate.
  - destruct (Hx s2 (proj1 F2) (proj2 F2)) as (X1 & X2 & X3 & X4). apply same_refl. apply okst_at with (pi := pi); auto. discriminate.
Qed.

Lemma twin_child pi s : vpre (CChild pi) s -> same false (body_child E1 g rec1 pi s) (body_child E2 g rec2 pi s).
Proof.
  intros (Hc & Hn & Ht & Hx). assert (Hok : okst false s) by (split; auto).
  unfold body_child, at_node. destruct (get pi (m_root s)) as [p|] eqn:Hg; [|split; [reflexivity|exact I]].
  specialize (Hx p eq_refl).
  destruct p as [b ty v cb|b sd st vals e cb|b st key vals e ecb cb|b k v ms ig ign cb|b st v ty tm cur ms ig cb|i];
    try (apply same_refl; exact Hok).
  - destruct st; [|apply same_refl; exact Hok].
    destruct (pop_value e) as [[v e']|] eqn:Hp; [|apply same_refl; apply (okst_true Hok)].
    assert (Hd : forall vals', dims (PArr b sd true vals e cb) (PArr b sd true vals' e' cb)).
    { intros vals'. apply dims_node; [unfold loc; simpl; auto|]. intros []; simpl; auto. eapply dims_pop_value; eauto. }
    cbn [e_store]. destruct (sto v); apply same_refl.
    + apply okst_true with (w := false). eapply okst_dims; [exact Hok| |reflexivity]. simpl. eapply dims_put; eauto.
    + eapply okst_dims; [exact Hok| |reflexivity]. simpl. eapply dims_put; eauto.
  - destruct Hx as (Hu & Hs & Hset).
    rewrite <- (@twin_cb ecb (AElem key e) (pops_eff (pi ++ [Elem])%list) e_ecb_false s) by (intros c ->; eapply due_element; eauto).
    pose proof (@calmly_cb E1 ecb (AElem key e) (pops_eff (pi ++ [Elem])%list) e_ecb_false s (@pops_dims _)) as F2. destruct (run_cb E1 ecb (AElem key e) (pops_eff (pi ++ [Elem])%list) e_ecb_false s) as [s1|x s1|u|];
      cbn [bind]; cbn [calmly] in F2; try (split; [reflexivity|exact I]).
    2: { apply same_refl. apply okst_true with (w := false). destruct F2. eapply okst_dims; eauto. }
    assert (Hok1 : okst false s1) by (destruct F2; eapply okst_dims; eauto).
    destruct st; [|apply same_refl; exact Hok1].
    destruct (get pi (m_root s1)) as [p1|] eqn:Hg1; [|split; [reflexivity|exact I]].
    destruct p1 as [| |b1 st1 key1 vals1 e1 ecb1 cbb| | |]; try (apply same_refl; exact Hok1).
    destruct (pop_value e1) as [[v e']|] eqn:Hp; [|apply same_refl; apply (okst_true Hok1)].
    assert (Hd : forall vals', dims (PMap b1 st1 key1 vals1 e1 ecb1 cbb) (PMap b1 st1 key1 vals' e' ecb1 cbb)).
    { intros vals'. apply dims_node; [unfold loc; simpl; auto|]. intros []; simpl; auto. eapply dims_pop_value; eauto. }
    cbn [e_store]. destruct (sto v); apply same_refl.
    + apply okst_true with (w := false). eapply okst_dims; [exact Hok1| |reflexivity]. simpl. eapply dims_put; eauto.
    + eapply okst_dims; [exact Hok1| |reflexivity]. simpl. eapply dims_put; eauto.
  - destruct Hx as (Hu & Hs & Hset). eapply same_bind.
    + apply (Hrec (c := CEnd pi)). split; auto. split; auto. split; auto. split; auto.
      intros q Hq. rewrite Hg in Hq. injection Hq as <-. reflexivity.
    + intros s1 _ Hok1. destruct (String.eqb tm ""); [|apply same_refl; exact Hok1].
      destruct (get pi (m_root s1)); [|split; [reflexivity|exact I]]. apply same_deref. intros _.
      apply (Hrec (c := CDisp TMapEnd)). destruct Hok1 as (A & B & C). split; auto.
Qed.

Lemma twin_call c s : vpre c s -> same (wof c) (call_body E1 g rec1 c s) (call_body E2 g rec2 c s).
Proof.
  destruct c; intros H; cbn [call_body wof].
  - apply twin_pop; auto.
  - apply twin_disp; auto.
  - apply twin_on; auto.
  - apply twin_end; auto.
  - apply twin_child; auto.
Qed.
End Body.

Lemma fault_okst c s s' : vpre c s -> In s' (faults g c s) -> okst true s'.
Proof.
  intros Hv Hin. apply (@faults_cases g (okst true) c s s' Hin).
  - intros pi t i -> _ Hg. destruct Hv as (Hc & Hn & Hu & Hs & _). eapply (@node_id pi s _ Hg); auto. discriminate.
  - intros pi t p -> Hg Hm. destruct Hv as (Hc & Hn & Hu & Hs & _). apply (@node_dims pi s _ Hg Hc Hn Hu Hs); [apply dims_not_empty|discriminate].
  - intros pi t b st vals e cb -> _ Hg Hd. destruct Hv as (Hc & Hn & Hu & Hs & _). apply (@node_ok pi s _ Hg Hc Hn Hu Hs); [exact I| |discriminate].
    pose proof (calm_get _ Hc Hg) as Hp. apply calm_node; [apply (calm_own Hp)|].
    intros [] q Hq; try discriminate. injection Hq as <-. apply calm_set_disp. apply (@calm_child _ Elem e Hp). reflexivity.
  - intros pi k b st key vals e ecb cb -> Hg Hd. destruct Hv as (Hc & Hn & Hu & Hs & Hr).
    apply (@node_push pi s _ Hg Hc Hn Hu Hs); [exact I| | |reflexivity].
    + eapply calm_dims; [apply (calm_get _ Hc Hg)|apply dims_not_empty].
    + destruct (Hr eq_refl _ Hg) as [H|[H|[i H]]]; [exact H|simpl in H; contradiction|discriminate].
  - intros pi x b st v ty tm cur ms ig cb -> _ Hg. destruct Hv as (Hc & Hn & Hu & Hs & _). apply (@node_dims pi s _ Hg Hc Hn Hu Hs); [|discriminate].
    eapply dims_trans; [apply dims_reset|apply dims_not_empty].
  - intros pi x b st v ty tm cur ms ig cb i -> _ Hg _ _. destruct Hv as (Hc & Hn & Hu & Hs & _).
    apply (@node_push pi s _ Hg Hc Hn Hu Hs); [exact I| |reflexivity|reflexivity].
    eapply calm_dims; [apply (calm_get _ Hc Hg)|]. eapply dims_trans; [apply dims_reset|apply dims_not_empty].
Qed.

Variable sto : value -> option exn.
Variable al : call -> mstate -> option fault.
Notation E1 := (mkEnv cb1 f sto al).
Notation E2 := (mkEnv cb2 f sto al).

Lemma twin_exec n : forall c s, vpre c s -> same (wof c) (exec E1 g n c s) (exec E2 g n c s).
Proof.
  induction n as [|n IH]; intros c s H; [split; [reflexivity|exact I]|]. cbn [exec]. unfold Model.body. cbn [e_alloc].
  destruct (al c s) as [[k x|x]|].
  - destruct (nth_error (faults g c s) k) as [s'|] eqn:Hk; [|apply twin_call; auto; intros; apply exec_le].
    apply same_refl. eapply fault_okst; eauto. eapply nth_error_In; eauto.
  - unfold store_fails. cbn [e_cb e_fmt e_alloc]. apply twin_call; auto. intros; apply exec_le.
  - apply twin_call; auto. intros; apply exec_le.
Qed.

(** The tokens of a text, in an order that JSON has. *)
Lemma twin_run ts : forall w s, okst w s -> values_lead w ts -> same (after_key w ts) (run E1 g ts s) (run E2 g ts s).
Proof.
  induction ts as [|t r IH]; intros w s H Hp; [apply same_refl; exact H|]. cbn [run]. destruct Hp as [Hp1 Hp2].
  apply same_bind with (w1 := is_key t).
  - unfold dispatch. apply (@twin_exec _ (CDisp t)). destruct H as (A & B & C). split; auto. split; auto.
    unfold topped in *. destruct (m_stack s); auto. destruct C as [C1 C2]. split; auto. intros Hb. apply C2. destruct w; auto. rewrite Hp1 in Hb; auto. 
  - intros s1 _ H1. apply IH; auto.
Qed.
End Twins.
End Veil.
