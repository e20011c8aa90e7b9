(** Declarations can be extended without breaking old documents: a newer version of a
    declaration reads every document that the old one accepted, with the same values. *)

From Verif Require Import Spec Model Infra Total Safe Refine Main.
Local Open Scope string_scope.
Set Implicit Arguments.

(** ** Specification *)

Definition kid_decls (s : schema) : list (mspec * schema) :=
  match s with SObj _ ms _ _ | SUni _ _ _ ms _ => ms | _ => [] end.

(** All the member names of a document. *)
Fixpoint all_keys (j : json) : list string :=
  match j with
  | JArr l => flat_map all_keys l
  | JObj ps => flat_map (fun kv => fst kv :: all_keys (snd kv)) ps
  | _ => []
  end.

Section Newer.
(** Names that the new declaration introduces in objects that ignore unknown members. *)
Variable N : list string.
(** The user's objects in the old and the new program that correspond to each other. *)
Variable R : value -> value -> Prop.

Definition custom (o o' : option value) : Prop :=
  match o, o' with Some v, Some v' => R v v' | None, None => True | _, _ => False end.

(** The value [v] of declaration [s] and the value [v'] of its newer version [s']: the
    same, but the tuple of an SAutoObject has the default values of the added members. *)
Inductive nval : schema -> schema -> value -> value -> Prop :=
| nv_scalar t cb x : nval (SVal t cb) (SVal t cb) (VSc x) (VSc x)
| nv_vector e e' cb l l' : Forall2 (nval e e') l l' -> nval (SArr true e cb) (SArr true e' cb) (VVec l) (VVec l')
| nv_map e e' ecb cb l l' : Forall2 (fun x x' => fst x = fst x' /\ nval e e' (snd x) (snd x')) l l' ->
    nval (SMp true e ecb cb) (SMp true e' ecb cb) (VMap l) (VMap l')
| nv_tuple ms ms' ign ign' cb l l' : ntuple ms ms' l l' ->
    nval (SObj OAuto ms ign cb) (SObj OAuto ms' ign' cb) (VTup l) (VTup l')
| nv_custom ms ms' ign ign' cb o o' : custom o o' ->
    nval (SObj OCustom ms ign cb) (SObj OCustom ms' ign' cb) (VCust o) (VCust o')
| nv_variant t tm ms ms' cb i m c m' c' v v' : nth_error ms i = Some (m, c) -> nth_error ms' i = Some (m', c') ->
    nval c c' v v' -> nval (SUni true t tm ms cb) (SUni true t tm ms' cb) (VVar i v) (VVar i v')
with ntuple : list (mspec * schema) -> list (mspec * schema) -> list value -> list value -> Prop :=
| nt_end : ntuple [] [] [] []
| nt_new m c ms d ds : m_def m = Some d -> ntuple [] ms [] ds -> ntuple [] ((m, c) :: ms) [] (d :: ds)
| nt_old m c m' c' ms ms' v v' l l' : nval c c' v v' -> ntuple ms ms' l l' ->
    ntuple ((m, c) :: ms) ((m', c') :: ms') (v :: l) (v' :: l').

(** A member that old documents do not need: optional, for an SAutoObject ([auto]) with a
    default; its name is in [N] if the old object ignored unknown members ([ign]). *)
Definition addable (auto ign : bool) (m : mspec) : Prop :=
  m_opt m = true /\ (auto = true -> m_def m <> None) /\ (ign = true -> forall n, m_name m = SStr n -> In n N).

(** The requirements of a member become milder: it may become optional, not mandatory,
    and keeps the default value if the value is needed. *)
Definition milder (auto : bool) (m m' : mspec) (c c' : schema) : Prop :=
  m_name m' = m_name m /\ (m_opt m = true -> m_opt m' = true) /\
  (auto = true -> m_opt m = true -> forall d, m_def m = Some d -> exists d', m_def m' = Some d' /\ nval c c' d d').

Definition is_auto (k : okind) : bool := match k with OAuto => true | _ => false end.

(** [newer s s']: [s'] is [s] with, anywhere in it, members added to objects, members made
    optional, unknown members ignored, members added to unions. *)
Inductive newer : schema -> schema -> Prop :=
| nw_value t cb : newer (SVal t cb) (SVal t cb)
| nw_ignore : newer SIgn SIgn
| nw_array st e e' cb : newer e e' -> newer (SArr st e cb) (SArr st e' cb)
| nw_map st e e' ecb cb : newer e e' -> newer (SMp st e ecb cb) (SMp st e' ecb cb)
| nw_object k ms ms' ign ign' cb : (ign = true -> ign' = true) -> nmembers (is_auto k) (addable (is_auto k) ign) ms ms' ->
    newer (SObj k ms ign cb) (SObj k ms' ign' cb)
| nw_union st t tm ms ms' cb : nmembers st (fun _ => True) ms ms' ->
    newer (SUni st t tm ms cb) (SUni st t tm ms' cb)
with nmembers : bool -> (mspec -> Prop) -> list (mspec * schema) -> list (mspec * schema) -> Prop :=
| nm_new auto (new : mspec -> Prop) ms' : (forall m c, In (m, c) ms' -> new m) -> nmembers auto new [] ms'
| nm_old auto new m c m' c' ms ms' : milder auto m m' c c' -> newer c c' -> nmembers auto new ms ms' ->
    nmembers auto new ((m, c) :: ms) ((m', c') :: ms').

(** What the parsers show: the same, the added members are unset. *)
Definition nheld (s s' : schema) (v v' : option value) : Prop :=
  match v, v' with Some x, Some x' => nval s s' x x' | None, None => True | _, _ => False end.

Inductive nview : schema -> schema -> view -> view -> Prop :=
| nw_view s s' b e v v' c ks ks' : nheld s s' v v' -> nkids (kid_decls s) (kid_decls s') ks ks' ->
    nview s s' (View b e v c ks) (View b e v' c ks')
with nkids : list (mspec * schema) -> list (mspec * schema) -> list view -> list view -> Prop :=
| nk_new ms' : nkids [] ms' [] (map (fun mp => fresh (snd mp)) ms')
| nk_old m c m' c' ms ms' w w' ks ks' : nview c c' w w' -> nkids ms ms' ks ks' ->
    nkids ((m, c) :: ms) ((m', c') :: ms') (w :: ks) (w' :: ks').

(** What callbacks are told. *)
Inductive nobs : obs -> obs -> Prop :=
| no_val s s' v v' : newer s s' -> nval s s' v v' -> nobs (OVal v) (OVal v')
| no_self s s' w w' : newer s s' -> nview s s' w w' -> nobs (OSelf w) (OSelf w')
| no_elem s s' k w w' : newer s s' -> nview s s' w w' -> nobs (OElem k w) (OElem k w')
| no_cust s s' w w' v v' : newer s s' -> nview s s' w w' -> nval s s' v v' -> nobs (OCust w v) (OCust w' v').

Definition nevent (e e' : event) : Prop :=
  match e, e' with Ev c o, Ev c' o' => c = c' /\ nobs o o' end.

Definition nlog : list event -> list event -> Prop := Forall2 nevent.

(** The callbacks of the new program do the same with what they are told (and storing
    its values does not throw). *)
Definition nprog (P P' : prog) : Prop :=
  (forall c l l' o o', nlog l l' -> nobs o o' -> a_res (p_cb P c l o) = CTrue ->
     a_res (p_cb P' c l' o') = CTrue /\ a_pops (p_cb P' c l' o') = a_pops (p_cb P c l o) /\
     custom (a_new (p_cb P c l o)) (a_new (p_cb P' c l' o'))) /\
  (forall v, p_store P' v = None).

(** ** Proof *)

Definition simS {A} (S : Prop) (rel : A -> A -> Prop) (o o' : list event * (exn + A)) : Prop :=
  forall l1 w, o = (l1, inr w) -> S /\ exists l1' w', o' = (l1', inr w') /\ nlog l1 l1' /\ rel w w'.

Lemma simS_andthen A B (S1 S2 : Prop) (rA : A -> A -> Prop) (rB : B -> B -> Prop) r r' k k' : simS S1 rA r r' ->
  (forall a a' l l', rA a a' -> nlog l l' -> simS S2 rB (k a l) (k' a' l')) -> simS (S1 /\ S2) rB (andthen r k) (andthen r' k').
Proof.
  intros H1 H2 l1 w H. destruct r as [l [e|a]]; cbn [andthen] in H; [discriminate|].
  destruct (H1 l a eq_refl) as (Hs & l' & a' & -> & Hl & Ha). cbn [andthen].
  destruct (H2 a a' l l' Ha Hl l1 w H) as (Hs2 & K). auto.
Qed.

Lemma simS_weak A (S S' : Prop) (r : A -> A -> Prop) o o' : (S -> S') -> simS S r o o' -> simS S' r o o'.
Proof. intros H K l w E. destruct (K l w E) as [K1 K2]. auto. Qed.

Lemma simS_ok A (r : A -> A -> Prop) l l' w w' : nlog l l' -> r w w' -> simS True r (l, inr w) (l', inr w').
Proof. intros Hl Hw l1 x H. injection H as <- <-. split; eauto. Qed.

Lemma simS_err A (S : Prop) (r : A -> A -> Prop) l e o' : simS S r (l, inl e) o'.
Proof. intros l1 x H. discriminate. Qed.

Section Programs.
Variables P P' : prog.
Hypothesis HP : nprog P P'.

Lemma nlog_snoc l l' c o o' : nlog l l' -> nobs o o' -> nlog (l ++ [Ev c o])%list (l' ++ [Ev c o'])%list.
Proof. intros H Ho. apply Forall2_app; auto. constructor; [split; auto|constructor]. Qed.

Lemma sim_invoke (rel : view -> view -> Prop) c o o' msg l l' k k' : nlog l l' -> nobs o o' ->
  (forall a a' l l', a_pops a' = a_pops a -> custom (a_new a) (a_new a') -> nlog l l' -> simS True rel (k a l) (k' a' l')) ->
  simS True rel (invoke P c o msg l k) (invoke P' c o' msg l' k').
Proof.
  intros Hl Ho Hk. unfold invoke. destruct c as [c|]; [|apply Hk; simpl; auto].
  destruct (a_res (p_cb P c l o)) eqn:Hr; try apply simS_err.
  destruct HP as [H _]. destruct (H c l l' o o' Hl Ho Hr) as (H1 & H2 & H3). rewrite H1.
  apply Hk; auto using nlog_snoc.
Qed.

(** Nothing can be popped from a new parser. *)
Lemma pop_fresh rel : forall s, pop_at rel (fresh s) = fresh s.
Proof.
  assert (F : forall s, v_val (fresh s) = None) by (intros []; reflexivity).
  induction rel as [|n rel IH]; intros s; cbn [pop_at]; [unfold popped; rewrite F; reflexivity|].
  destruct (nth_error (v_kids (fresh s)) n) as [c|] eqn:Hn; [|reflexivity].
  assert (Hc : exists s', c = fresh s').
  { destruct s; cbn [fresh v_kids] in Hn; try (destruct n; discriminate Hn); rewrite nth_error_map in Hn;
      destruct (nth_error ms n) as [mp|]; try discriminate Hn; cbn [option_map] in Hn; injection Hn as <-; eauto. }
  destruct Hc as [s' ->]. rewrite IH, Infra.set_nth_same by exact Hn. destruct (fresh s); reflexivity.
Qed.

Lemma nkids_old ms ms' ks ks' : nkids ms ms' ks ks' -> forall i w, nth_error ks i = Some w ->
  exists m c m' c' w', nth_error ms i = Some (m, c) /\ nth_error ms' i = Some (m', c') /\ nth_error ks' i = Some w' /\ nview c c' w w'.
Proof.
  induction ms as [|mp ms IH] in ms', ks, ks' |- *; intros H i x Hn; inversion H; subst; [destruct i; discriminate|].
  destruct i as [|i]; cbn [nth_error] in *; [injection Hn as <-; eauto 10|]. eapply IH; eauto.
Qed.

Lemma nkids_new ms ms' ks ks' : nkids ms ms' ks ks' -> forall i w', nth_error ks i = None -> nth_error ks' i = Some w' ->
  exists s, w' = fresh s.
Proof.
  induction ms as [|mp ms IH] in ms', ks, ks' |- *; intros H i x Hn Hx; inversion H; subst.
  - rewrite nth_error_map in Hx. destruct (nth_error ms' i); [|discriminate]. injection Hx as <-. eauto.
  - destruct i as [|i]; cbn [nth_error] in *; [discriminate|]. eapply IH; eauto.
Qed.

Lemma nkids_set ms ms' ks ks' : nkids ms ms' ks ks' -> forall i m c m' c' w w', nth_error ms i = Some (m, c) -> nth_error ms' i = Some (m', c') ->
  nview c c' w w' -> nkids ms ms' (set_nth i w ks) (set_nth i w' ks').
Proof.
  induction ms as [|mp ms IH] in ms', ks, ks' |- *; intros H i m c m' c' w w' Hm Hm' Hw; [destruct i; discriminate|].
  inversion H; subst. destruct i as [|i]; cbn [nth_error set_nth] in *.
  - injection Hm as -> ->. injection Hm' as -> ->. constructor; auto.
  - constructor; auto. eapply IH; eauto.
Qed.

Lemma nview_pop s s' rel : forall w w', nview s s' w w' -> nview s s' (pop_at rel w) (pop_at rel w').
Proof.
  induction rel as [|n rel IH] in s, s' |- *; intros w w' H; inversion H as [? ? b e v v' c ks ks' Hv Hk]; subst; cbn [pop_at v_kids].
  - unfold popped. cbn [v_val v_empty v_kids]. destruct v, v'; cbn [nheld] in Hv; try contradiction; constructor; simpl; auto.
  - cbn [v_set v_empty v_val v_cur]. destruct (nth_error ks n) as [x|] eqn:Hn.
    + destruct (nkids_old Hk n Hn) as (m1 & c1 & m2 & c2 & x' & E1 & E2 & E3 & E4). rewrite E3. constructor; auto.
      eapply nkids_set; eauto.
    + destruct (nth_error ks' n) as [x'|] eqn:Hn'; auto. destruct (nkids_new Hk n Hn Hn') as [q ->].
      rewrite pop_fresh, Infra.set_nth_same by auto. constructor; auto.
Qed.

Lemma nview_pops s s' a a' w w' : a_pops a' = a_pops a -> nview s s' w w' -> nview s s' (pops a w) (pops a' w').
Proof.
  intros E. unfold pops. rewrite E. generalize (a_pops a). intros rels. revert w w'.
  induction rels as [|r rels IH]; intros w w' H; cbn [fold_left]; auto using nview_pop.
Qed.

Lemma nview_popped s s' w w' : nview s s' w w' -> nview s s' (popped w) (popped w').
Proof. apply (nview_pop []). Qed.

Lemma nkids_popped ms ms' ks ks' : nkids ms ms' ks ks' -> nkids ms ms' (map popped ks) (map popped ks').
Proof.
  induction ms as [|mp ms IH] in ms', ks, ks' |- *; intros H; inversion H; subst; cbn [map].
  - rewrite map_map. erewrite map_ext; [constructor|]. intros [m s]. exact (pop_fresh [] s).
  - constructor; auto using nview_popped.
Qed.

(** A new parser. *)
Lemma nview_fresh s : forall s', newer s s' -> nview s s' (fresh s) (fresh s').
Proof.
  induction s as [t cb|st e cb IH|st e ecb cb IH|k ms ign cb IH|st t tm ms cb IH|] using schema_ind'; intros s' H; inversion H; subst;
    cbn [fresh]; constructor; cbn [nheld kid_decls]; auto; try apply (nk_new []).
  all: match goal with H : nmembers _ _ _ _ |- _ => rename H into Hm end.
  all: clear - IH Hm; revert Hm; generalize ms'; clear ms'; revert IH; induction ms as [|[m c] ms IHm]; intros IH ms' Hm; inversion Hm; subst; cbn [map snd];
    [constructor|inversion IH; subst; constructor; auto].
Qed.

Lemma nkids_fresh s s' : newer s s' -> nkids (kid_decls s) (kid_decls s') (fresh_kids s) (fresh_kids s').
Proof. intros H. pose proof (nview_fresh H) as K. unfold fresh_kids. destruct K. exact H1. Qed.

(** *** Members *)
Lemma nm_index auto new ms ms' nm : nmembers auto new ms ms' -> forall i, index_of nm ms = Some i -> index_of nm ms' = Some i.
Proof.
  induction ms as [|[m c] ms IH] in ms' |- *; intros H i Hi; [discriminate|]. inversion H as [|? ? ? ? m' c' ? ms1 Hm Hc Hr]; subst.
  cbn [index_of] in *. destruct Hm as [Hn _]. rewrite Hn. destruct (sc_eqb (m_name m) nm); auto.
  destruct (index_of nm ms) as [k|] eqn:Hk; [|discriminate]. rewrite (IH ms1 Hr k eq_refl). exact Hi.
Qed.

Lemma nm_nth auto new ms ms' : nmembers auto new ms ms' -> forall i m c, nth_error ms i = Some (m, c) ->
  exists m' c', nth_error ms' i = Some (m', c') /\ milder auto m m' c c' /\ newer c c'.
Proof.
  induction ms as [|[m c] ms IH] in ms' |- *; intros H i m1 c1 Hi; [destruct i; discriminate|].
  inversion H as [|? ? ? ? m' c' ? ms1 Hm Hc Hr]; subst. destruct i as [|i]; cbn [nth_error] in *; [injection Hi as <- <-; eauto|].
  eapply IH; eauto.
Qed.

Lemma nm_unknown auto ms ms' k : nmembers auto (addable auto true) ms ms' -> ~ In k N ->
  index_of (SStr k) ms = None -> index_of (SStr k) ms' = None.
Proof.
  intros H Hk. induction ms as [|[m c] ms IH] in ms', H |- *; intros Hi.
  - inversion H as [? ? ? Hn|]; subst. clear H Hi. induction ms' as [|[m c] ms' IH]; auto. cbn [index_of].
    destruct (Hn m c (or_introl eq_refl)) as (_ & _ & H). specialize (H eq_refl).
    rewrite IH by (intros; apply (Hn m0 c0); right; auto).
    destruct (sc_eqb (m_name m) (SStr k)) eqn:Hq; auto. destruct (m_name m) as [| | |n]; try discriminate.
    cbn [sc_eqb] in Hq. apply String.eqb_eq in Hq. subst. destruct (Hk (H k eq_refl)).
  - inversion H as [|? ? ? ? m' c' ? ms1 Hm Hc Hr]; subst. cbn [index_of] in *. destruct Hm as [Hn _]. rewrite Hn.
    destruct (sc_eqb (m_name m) (SStr k)); [discriminate|]. destruct (index_of (SStr k) ms) eqn:Hx; [discriminate|].
    rewrite (IH ms1 Hr eq_refl). reflexivity.
Qed.

Lemma nview_flags s s' w w' : nview s s' w w' -> v_set w' = v_set w /\ v_empty w' = v_empty w /\ nheld s s' (v_val w) (v_val w').
Proof. intros []. auto. Qed.

Lemma nm_missing auto ign ms ms' ks ks' : nmembers auto (addable auto ign) ms ms' -> nkids ms ms' ks ks' ->
  missing ms ks = None -> missing ms' ks' = None.
Proof.
  induction ms as [|[m c] ms IH] in ms', ks, ks' |- *; intros H Hk Hm; inversion Hk as [|? ? ? ? ? ? ? ? ks0 ? Hkv Hkr]; subst.
  - inversion H as [? ? ? Hn|]; subst. clear - Hn. induction ms' as [|[m c] ms' IH]; auto. cbn [map missing].
    rewrite IH by (intros; apply (Hn m0 c0); right; auto). destruct (Hn m c (or_introl eq_refl)) as (-> & _). rewrite orb_true_r. auto.
  - inversion H as [|? ? ? ? ? ? ? ? Hl Hc Hr]; subst. cbn [missing] in *. destruct (missing ms ks0) eqn:Hx; [discriminate|].
    rewrite (IH _ _ _ Hr Hkr Hx). destruct (nview_flags Hkv) as (E & _ & _). rewrite E. destruct Hl as (_ & Ho & _).
    destruct (v_set w); auto. cbn [orb] in *. destruct (m_opt m); [|discriminate]. rewrite Ho; auto.
Qed.

Lemma stored_fine v : storing P' v = inr v.
Proof. unfold storing. destruct HP as [_ H]. rewrite H. reflexivity. Qed.

Lemma nm_value m m' c c' w w' n n' v : milder true m m' c c' -> nview c c' w w' ->
  member_value P m w n = inr v -> exists v', member_value P' m' w' n' = inr v' /\ nval c c' v v'.
Proof.
  intros (_ & Ho & Hd) Hw H. destruct (nview_flags Hw) as (E1 & _ & E2). unfold member_value in *. rewrite E1.
  destruct (v_set w).
  - destruct (v_val w) as [x|]; [|discriminate]. unfold storing in H. destruct (p_store P x); [discriminate|]. injection H as <-.
    destruct (v_val w') as [x'|]; cbn [nheld] in E2; [|contradiction]. rewrite stored_fine. eauto.
  - destruct (m_opt m); [|discriminate]. rewrite Ho by auto. destruct (m_def m) as [d|] eqn:Hm; [|discriminate].
    unfold storing in H. destruct (p_store P d); [discriminate|]. injection H as <-.
    destruct (Hd eq_refl eq_refl d eq_refl) as (d' & -> & Hv). rewrite stored_fine. eauto.
Qed.

Lemma nm_values ign ms ms' ks ks' vs : nmembers true (addable true ign) ms ms' -> nkids ms ms' ks ks' ->
  member_values P ms ks = inr vs -> exists vs', member_values P' ms' ks' = inr vs' /\ ntuple ms ms' vs vs'.
Proof.
  induction ms as [|[m c] ms IH] in ms', ks, ks', vs |- *; intros H Hk Hm; inversion Hk as [|? ? ? ? ? ? ? ? ks0 ? Hkv Hkr]; subst.
  - cbn [member_values] in Hm. injection Hm as <-. inversion H as [? ? ? Hn|]; subst. clear - Hn HP. induction ms' as [|[m c] ms' IH].
    + exists []. split; auto. constructor.
    + cbn [map member_values]. destruct IH as (vs' & -> & Ht); [intros; apply (Hn m0 c0); right; auto|].
      destruct (Hn m c (or_introl eq_refl)) as (Ho & Hd & _). specialize (Hd eq_refl). destruct (m_def m) as [d|] eqn:Hm; [|congruence].
      unfold member_value. replace (v_set (fresh (snd (m, c)))) with false by (destruct c; reflexivity).
      rewrite Ho, Hm, stored_fine. exists (d :: vs'). split; auto. constructor; auto.
  - inversion H as [|? ? ? ? ? ? ? ? Hl Hc Hr]; subst. cbn [member_values] in *.
    destruct (member_values P ms ks0) as [e|us] eqn:Hx; [discriminate|].
    destruct (IH _ _ _ us Hr Hkr Hx) as (us' & -> & Ht).
    destruct (member_value P m w (name_text P (m_name m))) as [e|v] eqn:Hv; [discriminate|]. injection Hm as <-.
    destruct (@nm_value m m' c c' w w' _ (name_text P' (m_name m')) v Hl Hkv Hv) as (v' & -> & Hn).
    exists (v' :: us'). split; auto. constructor; auto.
Qed.

(** *** Ends *)
Lemma sim_end_object k ms ms' ign ign' cb empty ks ks' l l' :
  newer (SObj k ms ign cb) (SObj k ms' ign' cb) -> nkids ms ms' ks ks' -> nlog l l' ->
  simS True (nview (SObj k ms ign cb) (SObj k ms' ign' cb)) (end_object P k ms cb empty ks l) (end_object P' k ms' cb empty ks' l').
Proof.
  intros Hw Hk Hl. set (s := SObj k ms ign cb) in *. set (s' := SObj k ms' ign' cb) in *.
  assert (Hm : nmembers (is_auto k) (addable (is_auto k) ign) ms ms') by (inversion Hw; auto).
  unfold end_object. destruct empty.
  - apply simS_ok; auto. constructor; simpl; auto.
  - destruct k.
    + destruct (missing ms ks) eqn:Hx; [apply simS_err|]. rewrite (nm_missing Hm Hk Hx).
      assert (Hv : nview s s' (View true false None 0 ks) (View true false None 0 ks')) by (constructor; simpl; auto).
      apply sim_invoke; auto; [econstructor; eauto|]. intros a a' l1 l1' Hp _ Hl1. apply simS_ok; auto. apply nview_pops; auto.
    + destruct (member_values P ms ks) as [e|vs] eqn:Hx; [apply simS_err|].
      destruct (nm_values Hm Hk Hx) as (vs' & -> & Ht).
      assert (Hv : nval s s' (VTup vs) (VTup vs')) by (constructor; auto).
      apply sim_invoke; auto; [econstructor; eauto|]. intros a a' l1 l1' Hp _ Hl1. apply simS_ok; auto. constructor; simpl; auto using nkids_popped.
    + destruct (missing ms ks) eqn:Hx; [apply simS_err|]. rewrite (nm_missing Hm Hk Hx).
      assert (Hv : forall o o', custom o o' -> nview s s' (View true false (Some (VCust o)) 0 ks) (View true false (Some (VCust o')) 0 ks')).
      { intros o o' Ho. constructor; auto. constructor. auto. }
      apply sim_invoke; auto; [apply (@no_cust s s'); auto; [apply Hv; simpl; auto|constructor; simpl; auto]|].
      intros a a' l1 l1' Hp Hn Hl1. apply simS_ok; auto. apply nview_pops; auto.
Qed.

Lemma sim_end_union st t tm ms ms' cb i m c m' c' w w' ks ks' l l' :
  newer (SUni st t tm ms cb) (SUni st t tm ms' cb) -> nth_error ms i = Some (m, c) -> nth_error ms' i = Some (m', c') ->
  milder st m m' c c' -> nview c c' w w' -> nkids ms ms' ks ks' -> nlog l l' ->
  simS True (nview (SUni st t tm ms cb) (SUni st t tm ms' cb)) (end_union P st cb i m w ks l) (end_union P' st cb i m' w' ks' l').
Proof.
  intros Hw Hi Hi' Hm Hv Hk Hl. set (s := SUni st t tm ms cb) in *. set (s' := SUni st t tm ms' cb) in *. unfold end_union. destruct st.
  - destruct (member_value P m w ("#" ++ n2s i)) as [e|v] eqn:Hx; [apply simS_err|].
    destruct (@nm_value m m' c c' w w' _ ("#" ++ n2s i) v Hm Hv Hx) as (v' & -> & Hn).
    assert (Hq : nval s s' (VVar i v) (VVar i v')) by (econstructor; eauto).
    apply sim_invoke; auto; [econstructor; eauto|]. intros a a' l1 l1' _ _ Hl1. apply simS_ok; auto.
    constructor; simpl; auto. eapply nkids_set; eauto using nview_popped.
  - destruct (nview_flags Hv) as (E & _). rewrite E. destruct (v_set w || m_opt m) eqn:Ho; [|apply simS_err].
    assert (Ho' : v_set w || m_opt m' = true).
    { destruct (v_set w); auto. cbn [orb] in *. destruct Hm as (_ & H & _). auto. }
    rewrite Ho'. assert (Hq : nview s s' (View true false None i (set_nth i w ks)) (View true false None i (set_nth i w' ks'))).
    { constructor; simpl; auto. eapply nkids_set; eauto. }
    apply sim_invoke; auto; [econstructor; eauto|]. intros a a' l1 l1' Hp _ Hl1. apply simS_ok; auto. apply nview_pops; auto.
Qed.

Lemma sim_end_array st e e' cb empty vals vals' l l' : newer (SArr st e cb) (SArr st e' cb) -> Forall2 (nval e e') vals vals' -> nlog l l' ->
  simS True (nview (SArr st e cb) (SArr st e' cb)) (end_array P st cb empty vals l) (end_array P' st cb empty vals' l').
Proof.
  intros Hw Hv Hl. unfold end_array. destruct st.
  - assert (Hq : nval (SArr true e cb) (SArr true e' cb) (VVec vals) (VVec vals')) by (constructor; auto).
    apply sim_invoke; auto; [econstructor; eauto|]. intros a a' l1 l1' _ _ Hl1. apply simS_ok; auto. constructor; simpl; auto. apply (nk_new []).
  - assert (Hq : nview (SArr false e cb) (SArr false e' cb) (View true empty None 0 []) (View true empty None 0 [])).
    { constructor; simpl; auto. apply (nk_new []). }
    apply sim_invoke; auto; [econstructor; eauto|]. intros a a' l1 l1' Hp _ Hl1. apply simS_ok; auto. apply nview_pops; auto.
Qed.

Definition npairs e e' : list (string * value) -> list (string * value) -> Prop :=
  Forall2 (fun x x' => fst x = fst x' /\ nval e e' (snd x) (snd x')).

Lemma npairs_insert e e' k v v' l l' : npairs e e' l l' -> nval e e' v v' -> npairs e e' (map_insert k v l) (map_insert k v' l').
Proof.
  intros H Hv. induction H as [|[k1 v1] [k2 v2] l l' [E Hx] H IH]; cbn [map_insert fst snd] in *.
  - constructor; [split; auto|constructor].
  - subst k2. destruct (String.eqb k k1); [constructor; [split|]; auto|]. destruct (str_ltb k k1).
    + constructor; [split; auto|]. constructor; [split|]; auto.
    + constructor; [split|]; auto.
Qed.

Lemma sim_end_map st e e' ecb cb empty vals vals' l l' : newer (SMp st e ecb cb) (SMp st e' ecb cb) -> npairs e e' vals vals' -> nlog l l' ->
  simS True (nview (SMp st e ecb cb) (SMp st e' ecb cb)) (end_map P st cb empty vals l) (end_map P' st cb empty vals' l').
Proof.
  intros Hw Hv Hl. unfold end_map.
  assert (Hq : nview (SMp st e ecb cb) (SMp st e' ecb cb) (View true empty (if st then Some (VMap vals) else None) 0 [])
    (View true empty (if st then Some (VMap vals') else None) 0 [])).
  { constructor; [|apply (nk_new [])]. destruct st; simpl; auto. constructor; auto. }
  apply sim_invoke; auto; [econstructor; eauto|]. intros a a' l1 l1' Hp _ Hl1. apply simS_ok; auto. apply nview_pops; auto.
Qed.

Lemma sim_end_elem st e e' ecb k w w' vals vals' l l' : newer e e' -> nview e e' w w' -> npairs e e' vals vals' -> nlog l l' ->
  simS True (npairs e e') (end_map_elem P st ecb k w vals l) (end_map_elem P' st ecb k w' vals' l').
Proof.
  intros He Hw Hv Hl. unfold end_map_elem. eapply simS_weak; [|eapply simS_andthen with (rA := nview e e')]; [intros [_ H]; exact H| |].
  - apply sim_invoke; auto; [eapply no_elem; eauto|]. intros a a' l1 l1' Hp _ Hl1. apply simS_ok; auto. apply nview_pops; auto.
  - intros u u' l1 l1' Hu Hl1. cbn beta. destruct st; [|apply simS_ok; auto].
    destruct (nview_flags Hu) as (_ & _ & E). destruct (v_val u) as [v|]; [|apply simS_err].
    destruct (v_val u') as [v'|]; cbn [nheld] in E; [|contradiction]. rewrite stored_fine.
    unfold storing. destruct (p_store P v); [apply simS_err|]. cbn [andthen]. apply simS_ok; auto. apply npairs_insert; auto.
Qed.

(** *** Documents *)
Definition avoids (j : json) : Prop := forall k, In k N -> ~ In k (all_keys j).

Definition good_den (j : json) : Prop := forall s s' l l', newer s s' -> avoids j -> nlog l l' -> supported j s = true ->
  simS (supported j s' = true) (nview s s') (den P j s l) (den P' j s' l').

Lemma embedded_newer c c' v : newer c c' ->
  match embedded c v, embedded c' v with
  | Some (st, t, ms, cb, x), Some (st', t', ms', cb', x') =>
      st = st' /\ t = t' /\ cb = cb' /\ x = x' /\ c = SUni st t "" ms cb /\ c' = SUni st t "" ms' cb /\ nmembers st (fun _ => True) ms ms'
  | None, None => True
  | _, _ => False
  end.
Proof.
  intros H. destruct H; destruct v; simpl; auto. destruct (String.eqb tm "") eqn:Et; auto. apply String.eqb_eq in Et. subst tm. auto 10.
Qed.

Lemma sim_select (rest rest' : schema -> list event -> out) (sr sr' : schema -> bool) st t tm ms ms' cb x l l' :
  newer (SUni st t tm ms cb) (SUni st t tm ms' cb) ->
  (forall c c' l l', newer c c' -> nlog l l' -> sr c = true -> simS (sr' c' = true) (nview c c') (rest c l) (rest' c' l')) ->
  nlog l l' -> sup_select sr t ms x = true ->
  simS (sup_select sr' t ms' x = true) (nview (SUni st t tm ms cb) (SUni st t tm ms' cb))
    (select P rest st t ms cb x l) (select P' rest' st t ms' cb x l').
Proof.
  intros Hw Hr Hl Hs. assert (Hm : nmembers st (fun _ => True) ms ms') by (inversion Hw; auto). unfold select, sup_select in *.
  destruct (vtype_eqb (ty_of x) t); [|apply simS_err]. destruct (index_of x ms) as [i|] eqn:Hi; [|apply simS_err].
  rewrite (nm_index x Hm Hi). destruct (nth_error ms i) as [[m c]|] eqn:Hn; [|apply simS_err].
  destruct (nm_nth Hm i Hn) as (m' & c' & Hn' & Hmm & Hc). rewrite Hn'.
  eapply simS_weak; [|eapply simS_andthen; [apply Hr; eauto|]]; [intros [H _]; exact H|].
  intros w w' l1 l1' Hv Hl1. cbn beta. eapply sim_end_union; eauto. apply (nkids_fresh Hw).
Qed.

Lemma sim_body ps : Forall (fun kv => good_den (snd kv)) ps -> (forall k, In k N -> ~ In k (all_keys (JObj ps))) ->
  forall s s' empty ks ks' vals vals' l l', newer s s' -> nkids (kid_decls s) (kid_decls s') ks ks' ->
  (forall st e ecb cb st' e' ecb' cb', s = SMp st e ecb cb -> s' = SMp st' e' ecb' cb' -> npairs e e' vals vals') ->
  nlog l l' -> sup_body supported ps s = true ->
  simS (sup_body supported ps s' = true) (nview s s') (Spec.body P (den P) ps s empty ks vals l) (Spec.body P' (den P') ps s' empty ks' vals' l').
Proof.
  induction ps as [|[k v] ps IH]; intros Hd Hav s s' empty ks ks' vals vals' l l' Hn Hk Hp Hl Hs.
  - cbn [Spec.body]. apply (@simS_weak _ True); [reflexivity|]. destruct Hn; try apply simS_err.
    + eapply sim_end_map; [constructor; auto|eapply Hp; eauto|auto].
    + apply sim_end_object; auto. constructor; auto.
    + apply simS_ok; auto. constructor; simpl; auto.
  - inversion Hd as [|? ? Hv Hd']; subst. cbn [snd] in Hv.
    assert (Ha1 : avoids v).
    { intros q Hq Hin. apply (Hav q Hq). simpl. right. apply in_or_app. auto. }
    assert (Ha2 : forall q, In q N -> ~ In q (all_keys (JObj ps))).
    { intros q Hq Hin. apply (Hav q Hq). simpl. right. apply in_or_app. auto. }
    specialize (IH Hd' Ha2).
    assert (Hrest : forall c c' l l', newer c c' -> nlog l l' -> sup_body supported ps c = true ->
      simS (sup_body supported ps c' = true) (nview c c') (Spec.body P (den P) ps c true (fresh_kids c) [] l) (Spec.body P' (den P') ps c' true (fresh_kids c') [] l')).
    { intros c c' l0 l0' Hc Hl0 Hs0. apply IH; auto using nkids_fresh. intros; subst; constructor. }
    (* the value of a member or element *)
    assert (Hval : forall c c' t t' l l' (B : Type) (rB : B -> B -> Prop) K K', newer c c' -> nlog l l' -> sup_value supported (sup_body supported ps) t c v = true ->
      (forall took w w' l l', nview c c' w w' -> nlog l l' -> (took = false -> sup_body supported ps t = true) ->
         simS (took = false -> sup_body supported ps t' = true) rB (K (took, w) l) (K' (took, w') l')) ->
      simS (sup_value supported (sup_body supported ps) t' c' v = true) rB
        (andthen (value_of P (den P) (fun c l => Spec.body P (den P) ps c true (fresh_kids c) [] l) c v l) K)
        (andthen (value_of P' (den P') (fun c l => Spec.body P' (den P') ps c true (fresh_kids c) [] l) c' v l') K')).
    { intros c c' t t' l0 l0' B rB K K' Hc Hl0 Hsv HK. unfold value_of, sup_value in *. pose proof (embedded_newer v Hc) as He.
      destruct (embedded c v) as [[[[[st1 t1] ms1] cb1] x1]|], (embedded c' v) as [[[[[st2 t2] ms2] cb2] x2]|]; try contradiction.
      - destruct He as (<- & <- & <- & <- & -> & -> & Hm).
        eapply simS_weak; [|eapply simS_andthen with (rA := fun r r' => fst r = true /\ fst r' = true /\ nview (SUni st1 t1 "" ms1 cb1) (SUni st1 t1 "" ms2 cb1) (snd r) (snd r'))].
        2: { eapply simS_andthen; [eapply sim_select; eauto|]. intros w w' l1 l1' Hw Hl1. apply simS_ok; auto. }
        + intros [[H _] _]. exact H.
        + intros [b w] [b' w'] l1 l1' (E1 & E2 & Hw) Hl1. cbn [fst snd] in *. subst b b'. apply HK; auto. discriminate.
      - apply andb_true_iff in Hsv as [Hs1 Hs2].
        eapply simS_weak; [|eapply simS_andthen with (S2 := sup_body supported ps t' = true) (rA := fun r r' => fst r = false /\ fst r' = false /\ nview c c' (snd r) (snd r'))].
        2: { eapply simS_andthen; [apply Hv; eauto|]. intros w w' l1 l1' Hw Hl1. apply simS_ok; auto. }
        + intros [[H1 _] H2]. rewrite H1, H2. reflexivity.
        + intros [b w] [b' w'] l1 l1' (E1 & E2 & Hw) Hl1. cbn [fst snd] in *. subst b b'. eapply simS_weak; [|apply HK; auto]. auto. }
    cbn [Spec.body sup_body] in *. destruct Hn as [| |st e e' cb He|st e e' ecb cb He|knd ms ms' ign ign' cb Hi Hm|st t tm ms ms' cb Hm]; try apply simS_err.
    + (* map *)
      apply Hval with (t := SMp st e ecb cb) (l := l) (l' := l'); auto.
      intros took w w' l1 l1' Hw Hl1 Ht. cbn [fst snd].
      eapply simS_weak; [|eapply simS_andthen; [apply sim_end_elem; eauto|]]; [intros [_ H]; exact H|].
      intros vs vs' l2 l2' Hvs Hl2. cbn beta. destruct took.
      * eapply simS_weak; [|apply sim_end_map; auto]; [discriminate|]. constructor; auto.
      * eapply simS_weak; [|apply IH; auto]; [auto|constructor; auto|]. intros; congruence.
    + (* object *)
      destruct (index_of (SStr k) ms) as [i|] eqn:Hx.
      * rewrite (nm_index (SStr k) Hm Hx). destruct (nth_error ms i) as [[m c]|] eqn:Hq; [|apply simS_err].
        destruct (nm_nth Hm i Hq) as (m' & c' & Hq' & Hmm & Hc). rewrite Hq'.
        apply Hval with (t := SObj knd ms ign cb) (l := l) (l' := l'); auto.
        intros took w w' l1 l1' Hw Hl1 Ht. cbn [fst snd]. 
        assert (Hks : nkids ms ms' (set_nth i w ks) (set_nth i w' ks')) by (eapply nkids_set; eauto).
        destruct took.
        -- eapply simS_weak; [|apply sim_end_object; auto]; [discriminate|]. constructor; auto.
        -- eapply simS_weak; [|apply IH; auto]; [auto|apply nw_object; auto].
      * destruct ign; [|apply simS_err]. rewrite (Hi eq_refl).
        assert (Hnk : ~ In k N). { intros Hin. apply (Hav k Hin). simpl. auto. }
        rewrite (@nm_unknown _ ms ms' k Hm Hnk Hx). apply andb_true_iff in Hs as [Hs1 Hs2].
        eapply simS_weak; [|apply IH; eauto]; [intros ->; rewrite Hs1; reflexivity|constructor; auto|intros; discriminate].
    + (* union *)
      destruct (String.eqb tm ""); [apply simS_err|]. destruct (String.eqb k tm); [|apply simS_err].
      destruct v; try apply simS_err. eapply sim_select; eauto. constructor; auto.
Qed.

Lemma sim_elems st e e' cb js : newer e e' -> Forall good_den js -> (forall j, In j js -> avoids j) ->
  forall empty vals vals' l l', Forall2 (nval e e') vals vals' -> nlog l l' ->
  forallb (fun j => if is_null j then is_value e else supported j e) js = true ->
  simS (forallb (fun j => if is_null j then is_value e' else supported j e') js = true) (nview (SArr st e cb) (SArr st e' cb))
    (elems P (den P) st e cb js empty vals l) (elems P' (den P') st e' cb js empty vals' l').
Proof.
  intros He. induction js as [|j js IH]; intros Hd Ha empty vals vals' l l' Hv Hl Hs.
  - cbn [elems]. apply (@simS_weak _ True); [reflexivity|]. apply sim_end_array; auto. constructor; auto.
  - inversion Hd as [|? ? Hj Hd']; subst. cbn [forallb] in Hs. apply andb_true_iff in Hs as [Hs1 Hs2].
    assert (IH' := IH Hd' (fun q Hq => Ha q (or_intror Hq))). clear IH.
    assert (Hnn : forall empty, is_null j = false -> simS (forallb (fun j => if is_null j then is_value e' else supported j e') (j :: js) = true) (nview (SArr st e cb) (SArr st e' cb))
      (andthen (den P j e l) (fun w l => if st then match v_val w with Some v => andthen (l, storing P v) (fun v l => elems P (den P) st e cb js empty (vals ++ [v])%list l) | None => err l msg_unset end
         else elems P (den P) st e cb js empty vals l))
      (andthen (den P' j e' l') (fun w l => if st then match v_val w with Some v => andthen (l, storing P' v) (fun v l => elems P' (den P') st e' cb js empty (vals' ++ [v])%list l) | None => err l msg_unset end
         else elems P' (den P') st e' cb js empty vals' l))).
    { intros em Hnul. rewrite Hnul in Hs1.
      eapply simS_weak; [|eapply simS_andthen; [apply Hj; eauto; apply Ha; left; auto|]].
      - intros [H1 H2]. cbn [forallb]. rewrite Hnul, H1. exact H2.
      - intros w w' l1 l1' Hw Hl1. cbn beta. destruct st; [|apply IH'; auto].
        destruct (nview_flags Hw) as (_ & _ & E). destruct (v_val w) as [x|]; [|apply simS_err].
        destruct (v_val w') as [x'|]; cbn [nheld] in E; [|contradiction]. rewrite stored_fine.
        unfold storing. destruct (p_store P x); [apply simS_err|]. cbn [andthen]. apply IH'; auto. apply Forall2_app; auto. }
    destruct j; cbn [elems]; try (apply Hnn; reflexivity).
    eapply simS_weak; [|apply IH'; auto]. intros H. cbn [forallb is_null]. rewrite H. cbn [is_null] in Hs1. destruct He; try discriminate Hs1. reflexivity.
Qed.

Theorem newer_den j : good_den j.
Proof.
  induction j as [|x|js IH|ps IH] using json_ind'; intros s s' l l' Hn Ha Hl Hs.
  - cbn [den supported]. apply simS_weak with (S := True); [reflexivity|]. apply simS_ok; auto using nview_fresh.
  - destruct Hn; cbn [den supported] in *; try apply simS_err.
    + destruct (vtype_eqb (ty_of x) t); [|apply simS_err]. apply simS_weak with (S := True); [reflexivity|]. unfold end_value.
      apply sim_invoke; auto; [apply (@no_val (SVal t cb) (SVal t cb)); constructor|]. intros a a' l1 l1' _ _ Hl1. apply simS_ok; auto. constructor; [constructor|apply (nk_new [])].
    + apply simS_weak with (S := True); [reflexivity|]. apply simS_ok; auto. constructor; simpl; auto. apply (nk_new []).
  - destruct Hn; cbn [den supported] in *; try apply simS_err.
    + apply simS_weak with (S := True); [auto|]. apply simS_ok; auto. constructor; simpl; auto. apply (nk_new []).
    + apply andb_true_iff in Hs as [Hs1 Hs2]. eapply simS_weak; [|apply sim_elems; eauto].
      * intros H0. rewrite H0. destruct Hn; try discriminate Hs1; reflexivity.
      * intros j Hj k Hk Hin. apply (Ha k Hk). simpl. apply in_flat_map. eauto.
  - destruct Hn as [| |st e e' cb He|st e e' ecb cb He|knd ms ms' ign ign' cb Hi Hm|st t tm ms ms' cb Hm]; cbn [den supported] in *; try apply simS_err.
    + apply simS_weak with (S := True); [auto|]. apply simS_ok; auto. constructor; simpl; auto. apply (nk_new []).
    + apply sim_body; auto; [constructor; auto|apply (nk_new [])|intros; constructor].
    + assert (Hw : newer (SObj knd ms ign cb) (SObj knd ms' ign' cb)) by (constructor; auto).
      apply sim_body; auto; [exact (nkids_fresh Hw)|intros; constructor].
    + assert (Hw : newer (SUni st t tm ms cb) (SUni st t tm ms' cb)) by (constructor; auto).
      destruct (String.eqb tm ""); [apply simS_err|]. apply sim_body; auto; [exact (nkids_fresh Hw)|intros; constructor].
Qed.
End Programs.
End Newer.
