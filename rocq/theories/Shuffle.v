(** The order in which the members of objects and unions are declared does not matter. *)

From Verif Require Import Spec Model Infra Total Safe Refine Main Closed Members Round Newer.
From Coq Require Import Permutation SpecFloat.
Local Open Scope string_scope.
Set Implicit Arguments.

(** ** Specification *)

Section Shuffle.
(** The user's objects in the two programs that correspond to each other. *)
Variable R : value -> value -> Prop.

(** The value [v] of declaration [s] and the value [v'] of the other one: the same, but
    the tuple of an SAutoObject is in the order of its members, and the variant of an
    SUnion has the index of the member with the same name. *)
Inductive rval : schema -> schema -> value -> value -> Prop :=
| rv_scalar t cb x : rval (SVal t cb) (SVal t cb) (VSc x) (VSc x)
| rv_vector e e' cb l l' : Forall2 (rval e e') l l' -> rval (SArr true e cb) (SArr true e' cb) (VVec l) (VVec l')
| rv_map e e' ecb cb l l' : Forall2 (fun x x' => fst x = fst x' /\ rval e e' (snd x) (snd x')) l l' ->
    rval (SMp true e ecb cb) (SMp true e' ecb cb) (VMap l) (VMap l')
| rv_tuple ms ms' ign cb l l' : List.length l = List.length ms -> List.length l' = List.length ms' ->
    (forall i i' m c m' c' v v', nth_error ms i = Some (m, c) -> nth_error ms' i' = Some (m', c') -> m_name m' = m_name m ->
       nth_error l i = Some v -> nth_error l' i' = Some v' -> rval c c' v v') ->
    rval (SObj OAuto ms ign cb) (SObj OAuto ms' ign cb) (VTup l) (VTup l')
| rv_custom ms ms' ign cb o o' : custom R o o' ->
    rval (SObj OCustom ms ign cb) (SObj OCustom ms' ign cb) (VCust o) (VCust o')
| rv_variant t tm ms ms' cb i i' m c m' c' v v' : nth_error ms i = Some (m, c) -> nth_error ms' i' = Some (m', c') ->
    m_name m' = m_name m -> rval c c' v v' -> rval (SUni true t tm ms cb) (SUni true t tm ms' cb) (VVar i v) (VVar i' v').

(** Members with the same name: optional or not, with corresponding default values. *)
Definition like (m m' : mspec) (c c' : schema) : Prop :=
  m_opt m' = m_opt m /\
  match m_def m, m_def m' with Some d, Some d' => rval c c' d d' | None, None => True | _, _ => False end.

(** [reordered s s']: [s'] is [s] with the members of objects and unions, anywhere in it,
    in another order. *)
Inductive reordered : schema -> schema -> Prop :=
| ro_value t cb : reordered (SVal t cb) (SVal t cb)
| ro_ignore : reordered SIgn SIgn
| ro_array st e e' cb : reordered e e' -> reordered (SArr st e cb) (SArr st e' cb)
| ro_map st e e' ecb cb : reordered e e' -> reordered (SMp st e ecb cb) (SMp st e' ecb cb)
| ro_object k ms ms' ign cb :
    distinct (names_of ms) -> distinct (names_of ms') -> Permutation (names_of ms) (names_of ms') ->
    (forall m c m' c', In (m, c) ms -> In (m', c') ms' -> m_name m' = m_name m -> like m m' c c') ->
    (forall m c m' c', In (m, c) ms -> In (m', c') ms' -> m_name m' = m_name m -> reordered c c') ->
    reordered (SObj k ms ign cb) (SObj k ms' ign cb)
| ro_union st t tm ms ms' cb :
    distinct (names_of ms) -> distinct (names_of ms') -> Permutation (names_of ms) (names_of ms') ->
    (forall m c m' c', In (m, c) ms -> In (m', c') ms' -> m_name m' = m_name m -> like m m' c c') ->
    (forall m c m' c', In (m, c) ms -> In (m', c') ms' -> m_name m' = m_name m -> reordered c c') ->
    reordered (SUni st t tm ms cb) (SUni st t tm ms' cb).

(** What the parsers show: the same, for every name; currentMemberId() is the index of
    the member with the same name. *)
Definition rheld (s s' : schema) (v v' : option value) : Prop :=
  match v, v' with Some x, Some x' => rval s s' x x' | None, None => True | _, _ => False end.

Definition rcur (s s' : schema) (isset : bool) (i i' : nat) : Prop :=
  match s with
  | SUni _ _ _ ms _ =>
      if isset then exists m c m' c', nth_error ms i = Some (m, c) /\ nth_error (kid_decls s') i' = Some (m', c') /\ m_name m' = m_name m
      else i = i'
  | _ => i = i'
  end.

Inductive rview : schema -> schema -> view -> view -> Prop :=
| ro_view s s' b e v v' cur cur' ks ks' : rheld s s' v v' -> rcur s s' b cur cur' ->
    List.length ks = List.length (kid_decls s) -> List.length ks' = List.length (kid_decls s') ->
    (forall i i' m c m' c' w w', nth_error (kid_decls s) i = Some (m, c) -> nth_error (kid_decls s') i' = Some (m', c') ->
       m_name m' = m_name m -> nth_error ks i = Some w -> nth_error ks' i' = Some w' -> rview c c' w w') ->
    rview s s' (View b e v cur ks) (View b e v' cur' ks').

(** What callbacks are told. *)
Inductive robs : obs -> obs -> Prop :=
| rb_val s s' v v' : reordered s s' -> rval s s' v v' -> robs (OVal v) (OVal v')
| rb_self s s' w w' : reordered s s' -> rview s s' w w' -> robs (OSelf w) (OSelf w')
| rb_elem s s' k w w' : reordered s s' -> rview s s' w w' -> robs (OElem k w) (OElem k w')
| rb_cust s s' w w' v v' : reordered s s' -> rview s s' w w' -> rval s s' v v' -> robs (OCust w v) (OCust w' v').

Definition revent (e e' : event) : Prop :=
  match e, e' with Ev c o, Ev c' o' => c = c' /\ robs o o' end.

Definition rlog : list event -> list event -> Prop := Forall2 revent.

(** The callbacks of the other program do the same with what they are told (they look,
    and do not pop), and storing its values does not throw. *)
Definition rprog (P P' : prog) : Prop :=
  (forall c l l' o o', rlog l l' -> robs o o' -> a_res (p_cb P c l o) = CTrue ->
     a_res (p_cb P' c l' o') = CTrue /\ a_pops (p_cb P c l o) = [] /\ a_pops (p_cb P' c l' o') = [] /\
     custom R (a_new (p_cb P c l o)) (a_new (p_cb P' c l' o'))) /\
  (forall v, p_store P' v = None).

(** ** Proof *)

(** *** Names *)
Lemma SFeqb_euclid a b x : SFeqb a x = true -> SFeqb b x = true -> SFeqb a b = true.
Proof.
  unfold SFeqb.
  destruct a as [sa|sa| |sa ma ea], b as [sb|sb| |sb mb eb], x as [sx|sx| |sx mx ex]; cbn [SFcompare];
    repeat match goal with |- context [match ?s with true => _ | false => _ end] => is_var s; destruct s end; cbn [SFcompare];
    try reflexivity; try discriminate.
  all: destruct (Z.compare_spec ea ex); try discriminate; destruct (Z.compare_spec eb ex); try discriminate; subst.
  all: rewrite Z.compare_refl.
  all: repeat match goal with |- context [Pos.compare_cont Eq ?p ?q] => change (Pos.compare_cont Eq p q) with (Pos.compare p q) end.
  all: destruct (Pos.compare_spec ma mx); try discriminate; destruct (Pos.compare_spec mb mx); try discriminate; subst; rewrite Pos.compare_refl; auto.
Qed.

Lemma sc_euclid a b x : sc_eqb a x = true -> sc_eqb b x = true -> sc_eqb a b = true.
Proof.
  destruct a, x; try discriminate; destruct b; try discriminate; cbn [sc_eqb].
  - rewrite !Bool.eqb_true_iff. congruence.
  - rewrite !Z.eqb_eq. congruence.
  - apply SFeqb_euclid.
  - rewrite !String.eqb_eq. congruence.
Qed.

Lemma distinct_same (ms : list (mspec * schema)) : distinct (names_of ms) -> forall i j m c m' c',
  nth_error ms i = Some (m, c) -> nth_error ms j = Some (m', c') -> sc_eqb (m_name m) (m_name m') = true -> i = j.
Proof.
  induction ms as [|[m0 c0] ms IH]; intros Hd i j m c m' c' Hi Hj He; [destruct i; discriminate|].
  unfold names_of in Hd. cbn [map distinct fst] in Hd. destruct Hd as (H1 & H2 & H3).
  rewrite Forall_forall in H2.
  destruct i as [|i], j as [|j]; cbn [nth_error] in *; auto.
  - injection Hi as -> ->. rewrite H2 in He; [discriminate|]. apply (in_map (fun mp => m_name (fst mp)) ms (m', c')). eapply nth_error_In; eauto.
  - injection Hj as -> ->. cbn [fst] in *.
    assert (K : sc_eqb (m_name m') (m_name m) = true) by (apply sc_euclid with (m_name m'); auto).
    rewrite H2 in K; [discriminate|]. apply (in_map (fun mp => m_name (fst mp)) ms (m, c)). eapply nth_error_In; eauto.
  - f_equal. eapply IH; eauto.
Qed.

Lemma distinct_self (ms : list (mspec * schema)) : distinct (names_of ms) -> forall i m c,
  nth_error ms i = Some (m, c) -> sc_eqb (m_name m) (m_name m) = true.
Proof.
  induction ms as [|[m0 c0] ms IH]; intros Hd i m c Hi; [destruct i; discriminate|].
  unfold names_of in Hd. cbn [map distinct fst] in Hd. destruct Hd as (H1 & H2 & H3).
  destruct i as [|i]; cbn [nth_error] in Hi; [injection Hi as -> ->; exact H1|eauto].
Qed.

Lemma index_none A x (ms : list (mspec * A)) : index_of x ms = None -> forall i m c, nth_error ms i = Some (m, c) -> sc_eqb (m_name m) x = false.
Proof.
  induction ms as [|[m0 c0] ms IH]; intros H i m c Hi; [destruct i; discriminate|]. cbn [index_of] in H.
  destruct (sc_eqb (m_name m0) x) eqn:He; [discriminate|]. destruct (index_of x ms); [discriminate|].
  destruct i as [|i]; cbn [nth_error] in Hi; [congruence|eauto].
Qed.

(** *** Members *)
Definition rmembers (ms ms' : list (mspec * schema)) : Prop :=
  distinct (names_of ms) /\ distinct (names_of ms') /\ Permutation (names_of ms) (names_of ms') /\
  (forall m c m' c', In (m, c) ms -> In (m', c') ms' -> m_name m' = m_name m -> like m m' c c') /\
  (forall m c m' c', In (m, c) ms -> In (m', c') ms' -> m_name m' = m_name m -> reordered c c').

Lemma rm_len ms ms' : rmembers ms ms' -> List.length ms' = List.length ms.
Proof. intros (_ & _ & H & _). apply Permutation_length in H. unfold names_of in H. rewrite !map_length in H. auto. Qed.

Lemma perm_find (ms ms' : list (mspec * schema)) : Permutation (names_of ms) (names_of ms') -> forall i m c, nth_error ms i = Some (m, c) ->
  exists i' m' c', nth_error ms' i' = Some (m', c') /\ m_name m' = m_name m.
Proof.
  intros H i m c Hi. assert (K : In (m_name m) (names_of ms)) by (apply (in_map (fun mp => m_name (fst mp)) ms (m, c)); eapply nth_error_In; eauto).
  apply (Permutation_in _ H) in K. apply in_map_iff in K. destruct K as ([m' c'] & E & K). apply In_nth_error in K. destruct K as [i' K]. eauto.
Qed.

Lemma rm_find ms ms' : rmembers ms ms' -> forall i m c, nth_error ms i = Some (m, c) ->
  exists i' m' c', nth_error ms' i' = Some (m', c') /\ m_name m' = m_name m /\ like m m' c c' /\ reordered c c'.
Proof.
  intros (_ & _ & Hp & Hl & Hr) i m c Hi. destruct (@perm_find _ _ Hp i _ _ Hi) as (i' & m' & c' & Hi' & E).
  pose proof (nth_error_In _ _ Hi). pose proof (nth_error_In _ _ Hi'). exists i', m', c'. split; [auto|]. split; [auto|]. split; [eapply Hl; eauto|eapply Hr; eauto].
Qed.

Lemma rm_back ms ms' : rmembers ms ms' -> forall i' m' c', nth_error ms' i' = Some (m', c') ->
  exists i m c, nth_error ms i = Some (m, c) /\ m_name m' = m_name m /\ like m m' c c' /\ reordered c c'.
Proof.
  intros (_ & _ & Hp & Hl & Hr) i' m' c' Hi'. destruct (@perm_find _ _ (Permutation_sym Hp) i' _ _ Hi') as (i & m & c & Hi & E).
  pose proof (nth_error_In _ _ Hi). pose proof (nth_error_In _ _ Hi'). exists i, m, c. split; [auto|]. split; [auto|]. split; [eapply Hl; eauto|eapply Hr; eauto].
Qed.

Lemma rm_one ms ms' : rmembers ms ms' -> forall i i' j j' m c m' c' n d n' d',
  nth_error ms i = Some (m, c) -> nth_error ms' i' = Some (m', c') -> m_name m' = m_name m ->
  nth_error ms j = Some (n, d) -> nth_error ms' j' = Some (n', d') -> m_name n' = m_name n -> (i = j <-> i' = j').
Proof.
  intros (Hd & Hd' & _) i i' j j' m c m' c' n d n' d' Hi Hi' E Hj Hj' F. split; intros <-.
  - rewrite Hi in Hj. injection Hj as <- <-. apply (@distinct_same ms' Hd' _ _ _ _ _ _ Hi' Hj'). rewrite E, F. eapply (@distinct_self ms); eauto.
  - rewrite Hi' in Hj'. injection Hj' as <- <-. apply (@distinct_same ms Hd _ _ _ _ _ _ Hi Hj). rewrite <- E, <- F. eapply (@distinct_self ms'); eauto.
Qed.

Lemma rm_index ms ms' x : rmembers ms ms' -> forall i m c, index_of x ms = Some i -> nth_error ms i = Some (m, c) ->
  exists i' m' c', index_of x ms' = Some i' /\ nth_error ms' i' = Some (m', c') /\ m_name m' = m_name m /\ like m m' c c' /\ reordered c c'.
Proof.
  intros H i m c Hx Hi. destruct (index_of_nth _ _ Hx) as ([m0 c0] & Hi0 & E). rewrite Hi in Hi0. injection Hi0 as <- <-. cbn [fst] in E.
  destruct (rm_find H i Hi) as (i' & m' & c' & Hi' & F & K1 & K2). rewrite <- F in E.
  destruct (index_of x ms') as [j|] eqn:Hj; [|rewrite (index_none _ _ Hj _ Hi') in E; discriminate].
  destruct (index_of_nth _ _ Hj) as ([n d] & Hn & G). cbn [fst] in G.
  assert (j = i') as -> by (destruct H as (_ & Hd' & _); apply (@distinct_same ms' Hd' _ _ _ _ _ _ Hn Hi'); apply sc_euclid with x; auto).
  exists i', m', c'. auto 10.
Qed.

Lemma rm_unknown ms ms' x : rmembers ms ms' -> index_of x ms = None -> index_of x ms' = None.
Proof.
  intros H Hx. destruct (index_of x ms') as [j|] eqn:Hj; auto. destruct (index_of_nth _ _ Hj) as ([n d] & Hn & G). cbn [fst] in G.
  destruct (rm_back H j Hn) as (i & m & c & Hi & E & _). rewrite E, (index_none _ _ Hx _ Hi) in G. discriminate.
Qed.

Lemma ro_members_obj k ms ign cb s' : reordered (SObj k ms ign cb) s' -> exists ms', s' = SObj k ms' ign cb /\ rmembers ms ms'.
Proof. inversion 1; subst. exists ms'. unfold rmembers. auto 10. Qed.

Lemma ro_members_uni st t tm ms cb s' : reordered (SUni st t tm ms cb) s' -> exists ms', s' = SUni st t tm ms' cb /\ rmembers ms ms'.
Proof. inversion 1; subst. exists ms'. unfold rmembers. auto 10. Qed.

Lemma rm_obj k ms ms' ign cb : rmembers ms ms' -> reordered (SObj k ms ign cb) (SObj k ms' ign cb).
Proof. intros (H1 & H2 & H3 & H4 & H5). constructor; auto. Qed.

Lemma rm_uni st t tm ms ms' cb : rmembers ms ms' -> reordered (SUni st t tm ms cb) (SUni st t tm ms' cb).
Proof. intros (H1 & H2 & H3 & H4 & H5). constructor; auto. Qed.

(** *** Views of the members *)
Definition rkids (ms ms' : list (mspec * schema)) (ks ks' : list view) : Prop :=
  List.length ks = List.length ms /\ List.length ks' = List.length ms' /\
  (forall i i' m c m' c' w w', nth_error ms i = Some (m, c) -> nth_error ms' i' = Some (m', c') ->
     m_name m' = m_name m -> nth_error ks i = Some w -> nth_error ks' i' = Some w' -> rview c c' w w').

Lemma rk_view s s' b e v v' cur cur' ks ks' : rheld s s' v v' -> rcur s s' b cur cur' -> rkids (kid_decls s) (kid_decls s') ks ks' ->
  rview s s' (View b e v cur ks) (View b e v' cur' ks').
Proof. intros H1 H2 (H3 & H4 & H5). constructor; auto. Qed.

Lemma rk_nil : rkids [] [] [] [].
Proof. split; auto. split; auto. intros [|i] i' m c m' c' w w' H; discriminate H. Qed.

Lemma rk_set ms ms' ks ks' i i' m c m' c' w w' : rmembers ms ms' -> rkids ms ms' ks ks' ->
  nth_error ms i = Some (m, c) -> nth_error ms' i' = Some (m', c') -> m_name m' = m_name m -> rview c c' w w' ->
  rkids ms ms' (set_nth i w ks) (set_nth i' w' ks').
Proof.
  intros Hm (L & L' & Hk) Hi Hi' E Hw. split; [rewrite set_nth_length; auto|]. split; [rewrite set_nth_length; auto|].
  intros j j' n d n' d' u u' Hj Hj' F Hu Hu'. pose proof (rm_one Hm _ _ _ _ Hi Hi' E Hj Hj' F) as Q.
  destruct (Nat.eq_dec i j) as [<-|Hne].
  - assert (i' = j') as <- by (apply Q; auto). 
    assert (i < List.length ks) by (rewrite L; apply nth_error_Some; congruence).
    assert (i' < List.length ks') by (rewrite L'; apply nth_error_Some; congruence).
    rewrite nth_error_set_nth_eq in Hu, Hu' by auto. injection Hu as <-. injection Hu' as <-.
    rewrite Hi in Hj. rewrite Hi' in Hj'. injection Hj as <- <-. injection Hj' as <- <-. exact Hw.
  - assert (i' <> j') by (intros K; apply Hne; apply Q; exact K).
    rewrite nth_error_set_nth_ne in Hu, Hu' by auto. eapply Hk; eauto.
Qed.

Lemma rview_flags s s' w w' : rview s s' w w' -> v_set w' = v_set w /\ v_empty w' = v_empty w /\ rheld s s' (v_val w) (v_val w').
Proof. intros []. auto. Qed.

Lemma rview_popped s s' w w' : rview s s' w w' -> rview s s' (popped w) (popped w').
Proof.
  intros [q q' b e v v' cur cur' ks ks' Hv Hc L L' Hk]. unfold popped. cbn [v_val v_empty v_kids].
  destruct v, v'; cbn [rheld] in Hv; try contradiction; constructor; simpl; auto. destruct q; simpl; auto.
Qed.

Lemma rk_popped ms ms' ks ks' : rkids ms ms' ks ks' -> rkids ms ms' (map popped ks) (map popped ks').
Proof.
  intros (L & L' & Hk). split; [rewrite map_length; auto|]. split; [rewrite map_length; auto|].
  intros i i' m c m' c' w w' Hi Hi' E Hw Hw'. rewrite nth_error_map in Hw, Hw'.
  destruct (nth_error ks i) as [u|] eqn:Hu; [|discriminate]. destruct (nth_error ks' i') as [u'|] eqn:Hu'; [|discriminate].
  cbn [option_map] in *. injection Hw as <-. injection Hw' as <-. apply rview_popped. eapply Hk; eauto.
Qed.

Lemma rk_fresh_of ms ms' : (forall m c m' c', In (m, c) ms -> In (m', c') ms' -> m_name m' = m_name m -> rview c c' (fresh c) (fresh c')) ->
  rkids ms ms' (map (fun mp => fresh (snd mp)) ms) (map (fun mp => fresh (snd mp)) ms').
Proof.
  intros H. split; [apply map_length|]. split; [apply map_length|].
  intros i i' m c m' c' w w' Hi Hi' E Hw Hw'. rewrite nth_error_map, Hi in Hw. rewrite nth_error_map, Hi' in Hw'.
  cbn [option_map snd] in *. injection Hw as <-. injection Hw' as <-. eapply H; eauto using nth_error_In.
Qed.

Lemma rview_fresh s : forall s', reordered s s' -> rview s s' (fresh s) (fresh s').
Proof.
  induction s as [t cb|st e cb IH|st e ecb cb IH|k ms ign cb IH|st t tm ms cb IH|] using schema_ind'; intros s' H.
  1,2,3,6: inversion H; subst; cbn [fresh]; apply rk_view; simpl; auto; apply rk_nil.
  - destruct (ro_members_obj H) as (ms' & -> & Hm). cbn [fresh]. apply rk_view; [simpl; auto|simpl; auto|].
    destruct Hm as (_ & _ & _ & _ & Hr). apply rk_fresh_of. intros m c m' c' Hi Hi' E.
    rewrite Forall_forall in IH. eapply (IH (m, c) Hi), Hr; eauto.
  - destruct (ro_members_uni H) as (ms' & -> & Hm). cbn [fresh]. apply rk_view; [simpl; auto|simpl; auto|].
    destruct Hm as (_ & _ & _ & _ & Hr). apply rk_fresh_of. intros m c m' c' Hi Hi' E.
    rewrite Forall_forall in IH. eapply (IH (m, c) Hi), Hr; eauto.
Qed.

Lemma rk_fresh s s' : reordered s s' -> rkids (kid_decls s) (kid_decls s') (fresh_kids s) (fresh_kids s').
Proof. intros H. pose proof (rview_fresh H) as K. unfold fresh_kids. destruct K. split; auto. Qed.

Lemma rk_missing ms ms' ks ks' : rmembers ms ms' -> rkids ms ms' ks ks' -> missing ms ks = None -> missing ms' ks' = None.
Proof.
  intros Hm (L & L' & Hk) H. rewrite missing_none_spec in H by auto. apply missing_none_spec; auto.
  intros i' m' c' w' Hi' Hw'. destruct (rm_back Hm i' Hi') as (i & m & c & Hi & E & [Ho _] & _).
  destruct (nth_error ks i) as [w|] eqn:Hw; [|apply nth_error_None in Hw; apply nth_error_Some_lt in Hi; lia].
  destruct (rview_flags (Hk _ _ _ _ _ _ _ _ Hi Hi' E Hw Hw')) as (-> & _ & _). rewrite Ho. eauto.
Qed.


(** *** Programs *)
Definition simR {A} (S : Prop) (rel : A -> A -> Prop) (o o' : list event * (exn + A)) : Prop :=
  forall l1 w, o = (l1, inr w) -> S /\ exists l1' w', o' = (l1', inr w') /\ rlog l1 l1' /\ rel w w'.

Lemma simR_andthen A B (S1 S2 : Prop) (rA : A -> A -> Prop) (rB : B -> B -> Prop) r r' k k' : simR S1 rA r r' ->
  (forall a a' l l', rA a a' -> rlog l l' -> simR S2 rB (k a l) (k' a' l')) -> simR (S1 /\ S2) rB (andthen r k) (andthen r' k').
Proof.
  intros H1 H2 l1 w H. destruct r as [l [e|a]]; cbn [andthen] in H; [discriminate|].
  destruct (H1 l a eq_refl) as (Hs & l' & a' & -> & Hl & Ha). cbn [andthen].
  destruct (H2 a a' l l' Ha Hl l1 w H) as (Hs2 & K). auto.
Qed.

Lemma simR_weak A (S S' : Prop) (r : A -> A -> Prop) o o' : (S -> S') -> simR S r o o' -> simR S' r o o'.
Proof. intros H K l w E. destruct (K l w E) as [K1 K2]. auto. Qed.

Lemma simR_ok A (r : A -> A -> Prop) l l' w w' : rlog l l' -> r w w' -> simR True r (l, inr w) (l', inr w').
Proof. intros Hl Hw l1 x H. injection H as <- <-. split; eauto. Qed.

Lemma simR_err A (S : Prop) (r : A -> A -> Prop) l e o' : simR S r (l, inl e) o'.
Proof. intros l1 x H. discriminate. Qed.

Section Programs.
Variables P P' : prog.
Hypothesis HP : rprog P P'.

Lemma rlog_snoc l l' c o o' : rlog l l' -> robs o o' -> rlog (l ++ [Ev c o])%list (l' ++ [Ev c o'])%list.
Proof. intros H Ho. apply Forall2_app; auto. constructor; [split; auto|constructor]. Qed.

Lemma sim_invoke (rel : view -> view -> Prop) c o o' msg l l' k k' : rlog l l' -> robs o o' ->
  (forall a a' l l', a_pops a = [] -> a_pops a' = [] -> custom R (a_new a) (a_new a') -> rlog l l' -> simR True rel (k a l) (k' a' l')) ->
  simR True rel (invoke P c o msg l k) (invoke P' c o' msg l' k').
Proof.
  intros Hl Ho Hk. unfold invoke. destruct c as [c|]; [|apply Hk; simpl; auto].
  destruct (a_res (p_cb P c l o)) eqn:Hr; try apply simR_err.
  destruct HP as [H _]. destruct (H c l l' o o' Hl Ho Hr) as (H1 & H2 & H3 & H4). rewrite H1.
  apply Hk; auto using rlog_snoc.
Qed.

Lemma no_pops a w : a_pops a = [] -> pops a w = w.
Proof. unfold pops. intros ->. reflexivity. Qed.

Lemma stored_fine v : storing P' v = inr v.
Proof. unfold storing. destruct HP as [_ H]. rewrite H. reflexivity. Qed.

Lemma rm_value m m' c c' w w' n n' v : like m m' c c' -> rview c c' w w' ->
  member_value P m w n = inr v -> exists v', member_value P' m' w' n' = inr v' /\ rval c c' v v'.
Proof.
  intros (Ho & Hd) Hw H. destruct (rview_flags Hw) as (E1 & _ & E2). unfold member_value in *. rewrite E1, Ho.
  destruct (v_set w).
  - destruct (v_val w) as [x|]; [|discriminate]. unfold storing in H. destruct (p_store P x); [discriminate|]. injection H as <-.
    destruct (v_val w') as [x'|]; cbn [rheld] in E2; [|contradiction]. rewrite stored_fine. eauto.
  - destruct (m_opt m); [|discriminate]. destruct (m_def m) as [d|]; [|discriminate].
    unfold storing in H. destruct (p_store P d); [discriminate|]. injection H as <-.
    destruct (m_def m') as [d'|]; [|contradiction]. rewrite stored_fine. eauto.
Qed.

(** The values of the members, one by one. *)
Lemma values_each ms ks vs : List.length ks = List.length ms -> member_values P ms ks = inr vs -> List.length vs = List.length ms /\
  forall i m c w, nth_error ms i = Some (m, c) -> nth_error ks i = Some w ->
    exists v, nth_error vs i = Some v /\ member_value P m w (name_text P (m_name m)) = inr v.
Proof.
  induction ms as [|[m c] ms IH] in ks, vs |- *; intros L H.
  - cbn [member_values] in H. injection H as <-. split; auto. intros [|i]; discriminate.
  - destruct ks as [|w ks]; [discriminate|]. cbn [member_values] in H. injection L as L.
    destruct (member_values P ms ks) as [e|us] eqn:Hx; [discriminate|].
    destruct (member_value P m w (name_text P (m_name m))) as [e|v] eqn:Hv; [discriminate|]. injection H as <-.
    destruct (IH ks us L Hx) as [L' K]. split; [simpl; auto|]. intros [|i] m1 c1 w1 Hi Hw; cbn [nth_error] in *; [|eauto].
    injection Hi as <- <-. injection Hw as <-. eauto.
Qed.

Lemma values_all ms ks : List.length ks = List.length ms ->
  (forall i m c w, nth_error ms i = Some (m, c) -> nth_error ks i = Some w -> exists v, member_value P' m w (name_text P' (m_name m)) = inr v) ->
  exists vs, member_values P' ms ks = inr vs.
Proof.
  induction ms as [|[m c] ms IH] in ks |- *; intros L H; [eexists; reflexivity|]. destruct ks as [|w ks]; [discriminate|]. injection L as L.
  cbn [member_values]. destruct (IH ks L (fun i => H (S i))) as [vs ->]. destruct (H 0 m c w eq_refl eq_refl) as [v ->]. eauto.
Qed.

End Programs.

Section Sim.
Variables P P' : prog.
Hypothesis HP : rprog P P'.

Lemma rm_values ms ms' ks ks' vs ign cb : rmembers ms ms' -> rkids ms ms' ks ks' -> member_values P ms ks = inr vs ->
  exists vs', member_values P' ms' ks' = inr vs' /\ rval (SObj OAuto ms ign cb) (SObj OAuto ms' ign cb) (VTup vs) (VTup vs').
Proof.
  intros Hm (L & L' & Hk) H. destruct (@values_each P ms ks vs L H) as [Lv K].
  assert (Each : forall i' m' c' w', nth_error ms' i' = Some (m', c') -> nth_error ks' i' = Some w' -> exists i m c v v',
    nth_error ms i = Some (m, c) /\ m_name m' = m_name m /\ nth_error vs i = Some v /\ member_value P' m' w' (name_text P' (m_name m')) = inr v' /\ rval c c' v v').
  { intros i' m' c' w' Hi' Hw'. destruct (rm_back Hm i' Hi') as (i & m & c & Hi & E & Hl & _).
    destruct (nth_error ks i) as [w|] eqn:Hw; [|apply nth_error_None in Hw; apply nth_error_Some_lt in Hi; lia].
    destruct (K i m c w Hi Hw) as (v & Hv & Hx).
    destruct (@rm_value P P' HP m m' c c' w w' _ (name_text P' (m_name m')) v Hl (Hk _ _ _ _ _ _ _ _ Hi Hi' E Hw Hw') Hx) as (v' & Hx' & Hr).
    exists i, m, c, v, v'. auto. }
  destruct (@values_all P' ms' ks' L') as [vs' Hvs'].
  { intros i' m' c' w' Hi' Hw'. destruct (Each i' m' c' w' Hi' Hw') as (i & m & c & v & v' & _ & _ & _ & Hx & _). eauto. }
  exists vs'. split; auto. destruct (@values_each P' ms' ks' vs' L' Hvs') as [Lv' K']. constructor; auto.
  intros i i' m c m' c' v v' Hi Hi' E Hv Hv'.
  destruct (nth_error ks' i') as [w'|] eqn:Hw'; [|apply nth_error_None in Hw'; apply nth_error_Some_lt in Hi'; lia].
  destruct (Each i' m' c' w' Hi' Hw') as (j & n & d & u & u' & Hj & F & Hu & Hx & Hr).
  destruct (K' i' m' c' w' Hi' Hw') as (u2 & Hu2 & Hx2). rewrite Hx in Hx2. injection Hx2 as <-. rewrite Hv' in Hu2. injection Hu2 as <-.
  assert (j = i) as -> by (apply (rm_one Hm _ _ _ _ Hj Hi' F Hi Hi' E); auto).
  rewrite Hi in Hj. injection Hj as <- <-. rewrite Hv in Hu. injection Hu as <-. exact Hr.
Qed.

Lemma sim_end_object k ms ms' ign cb empty ks ks' l l' : rmembers ms ms' -> rkids ms ms' ks ks' -> rlog l l' ->
  simR True (rview (SObj k ms ign cb) (SObj k ms' ign cb)) (end_object P k ms cb empty ks l) (end_object P' k ms' cb empty ks' l').
Proof.
  intros Hm Hk Hl. pose proof (rm_obj k ign cb Hm) as Hw. set (s := SObj k ms ign cb) in *. set (s' := SObj k ms' ign cb) in *.
  unfold end_object. destruct empty.
  - apply simR_ok; auto. apply rk_view; simpl; auto.
  - destruct k.
    + destruct (missing ms ks) eqn:Hx; [apply simR_err|]. rewrite (rk_missing Hm Hk Hx).
      assert (Hv : rview s s' (View true false None 0 ks) (View true false None 0 ks')) by (apply rk_view; simpl; auto).
      apply (sim_invoke HP); auto; [econstructor; eauto|]. intros a a' l1 l1' E E' _ Hl1. rewrite !no_pops by auto. apply simR_ok; auto.
    + destruct (member_values P ms ks) as [e|vs] eqn:Hx; [apply simR_err|].
      destruct (rm_values ign cb Hm Hk Hx) as (vs' & -> & Hv).
      apply (sim_invoke HP); auto; [econstructor; eauto|]. intros a a' l1 l1' _ _ _ Hl1. apply simR_ok; auto.
      apply rk_view; simpl; auto using rk_popped.
    + destruct (missing ms ks) eqn:Hx; [apply simR_err|]. rewrite (rk_missing Hm Hk Hx).
      assert (Hv : forall o o', custom R o o' -> rview s s' (View true false (Some (VCust o)) 0 ks) (View true false (Some (VCust o')) 0 ks')).
      { intros o o' Ho. apply rk_view; simpl; auto. constructor. auto. }
      apply (sim_invoke HP); auto; [apply (@rb_cust s s'); auto; [apply Hv; simpl; auto|constructor; simpl; auto]|].
      intros a a' l1 l1' E E' Hn Hl1. rewrite !no_pops by auto. apply simR_ok; auto.
Qed.

Lemma sim_end_union st t tm ms ms' cb i i' m c m' c' w w' ks ks' l l' : rmembers ms ms' ->
  nth_error ms i = Some (m, c) -> nth_error ms' i' = Some (m', c') -> m_name m' = m_name m ->
  like m m' c c' -> rview c c' w w' -> rkids ms ms' ks ks' -> rlog l l' ->
  simR True (rview (SUni st t tm ms cb) (SUni st t tm ms' cb)) (end_union P st cb i m w ks l) (end_union P' st cb i' m' w' ks' l').
Proof.
  intros Hms Hi Hi' En Hm Hv Hk Hl. pose proof (rm_uni st t tm cb Hms) as Hw.
  set (s := SUni st t tm ms cb) in *. set (s' := SUni st t tm ms' cb) in *. unfold end_union. destruct st.
  - destruct (member_value P m w ("#" ++ n2s i)) as [e|v] eqn:Hx; [apply simR_err|].
    destruct (@rm_value P P' HP m m' c c' w w' _ ("#" ++ n2s i') v Hm Hv Hx) as (v' & -> & Hn).
    assert (Hq : rval s s' (VVar i v) (VVar i' v')) by (eapply rv_variant; eauto).
    apply (sim_invoke HP); auto; [econstructor; eauto|]. intros a a' l1 l1' _ _ _ Hl1. apply simR_ok; auto.
    apply rk_view; simpl; eauto 10. eapply rk_set; eauto using rview_popped.
  - destruct (rview_flags Hv) as (E & _). destruct Hm as [Ho _]. rewrite E, Ho. destruct (v_set w || m_opt m); [|apply simR_err].
    assert (Hq : rview s s' (View true false None i (set_nth i w ks)) (View true false None i' (set_nth i' w' ks'))).
    { apply rk_view; simpl; eauto 10. eapply rk_set; eauto. }
    apply (sim_invoke HP); auto; [econstructor; eauto|]. intros a a' l1 l1' E1 E2 _ Hl1. rewrite !no_pops by auto. apply simR_ok; auto.
Qed.

Lemma sim_end_array st e e' cb empty vals vals' l l' : reordered e e' -> Forall2 (rval e e') vals vals' -> rlog l l' ->
  simR True (rview (SArr st e cb) (SArr st e' cb)) (end_array P st cb empty vals l) (end_array P' st cb empty vals' l').
Proof.
  intros He Hv Hl. assert (Hw : forall st, reordered (SArr st e cb) (SArr st e' cb)) by (intros; constructor; auto). unfold end_array. destruct st.
  - assert (Hq : rval (SArr true e cb) (SArr true e' cb) (VVec vals) (VVec vals')) by (constructor; auto).
    apply (sim_invoke HP); auto; [eapply rb_val; [apply (Hw true)|exact Hq]|]. intros a a' l1 l1' _ _ _ Hl1. apply simR_ok; auto. apply rk_view; simpl; auto using rk_nil.
  - assert (Hq : rview (SArr false e cb) (SArr false e' cb) (View true empty None 0 []) (View true empty None 0 [])).
    { apply rk_view; simpl; auto using rk_nil. }
    apply (sim_invoke HP); auto; [eapply rb_self; [apply (Hw false)|exact Hq]|]. intros a a' l1 l1' E1 E2 _ Hl1. rewrite !no_pops by auto. apply simR_ok; auto.
Qed.

Definition rpairs e e' : list (string * value) -> list (string * value) -> Prop :=
  Forall2 (fun x x' => fst x = fst x' /\ rval e e' (snd x) (snd x')).

Lemma rpairs_insert e e' k v v' l l' : rpairs e e' l l' -> rval e e' v v' -> rpairs e e' (map_insert k v l) (map_insert k v' l').
Proof.
  intros H Hv. induction H as [|[k1 v1] [k2 v2] l l' [E Hx] H IH]; cbn [map_insert fst snd] in *.
  - constructor; [split; auto|constructor].
  - subst k2. destruct (String.eqb k k1); [constructor; [split|]; auto|]. destruct (str_ltb k k1).
    + constructor; [split; auto|]. constructor; [split|]; auto.
    + constructor; [split|]; auto.
Qed.

Lemma sim_end_map st e e' ecb cb empty vals vals' l l' : reordered e e' -> rpairs e e' vals vals' -> rlog l l' ->
  simR True (rview (SMp st e ecb cb) (SMp st e' ecb cb)) (end_map P st cb empty vals l) (end_map P' st cb empty vals' l').
Proof.
  intros He Hv Hl. assert (Hw : reordered (SMp st e ecb cb) (SMp st e' ecb cb)) by (constructor; auto). unfold end_map.
  assert (Hq : rview (SMp st e ecb cb) (SMp st e' ecb cb) (View true empty (if st then Some (VMap vals) else None) 0 [])
    (View true empty (if st then Some (VMap vals') else None) 0 [])).
  { apply rk_view; [|simpl; auto|apply rk_nil]. destruct st; simpl; auto. constructor; auto. }
  apply (sim_invoke HP); auto; [eapply rb_self; [exact Hw|exact Hq]|]. intros a a' l1 l1' E1 E2 _ Hl1. rewrite !no_pops by auto. apply simR_ok; auto.
Qed.

Lemma sim_end_elem st e e' ecb k w w' vals vals' l l' : reordered e e' -> rview e e' w w' -> rpairs e e' vals vals' -> rlog l l' ->
  simR True (rpairs e e') (end_map_elem P st ecb k w vals l) (end_map_elem P' st ecb k w' vals' l').
Proof.
  intros He Hw Hv Hl. unfold end_map_elem. eapply simR_weak; [|eapply simR_andthen with (rA := rview e e')]; [intros [_ H]; exact H| |].
  - apply (sim_invoke HP); auto; [eapply rb_elem; eauto|]. intros a a' l1 l1' E1 E2 _ Hl1. rewrite !no_pops by auto. apply simR_ok; auto.
  - intros u u' l1 l1' Hu Hl1. cbn beta. destruct st; [|apply simR_ok; auto].
    destruct (rview_flags Hu) as (_ & _ & E). destruct (v_val u) as [v|]; [|apply simR_err].
    destruct (v_val u') as [v'|]; cbn [rheld] in E; [|contradiction]. rewrite (stored_fine HP).
    unfold storing. destruct (p_store P v); [apply simR_err|]. cbn [andthen]. apply simR_ok; auto. apply rpairs_insert; auto.
Qed.

(** *** Documents *)
Definition good_den (j : json) : Prop := forall s s' l l', reordered s s' -> rlog l l' -> supported j s = true ->
  simR (supported j s' = true) (rview s s') (den P j s l) (den P' j s' l').

Lemma embedded_reordered c c' v : reordered c c' ->
  match embedded c v, embedded c' v with
  | Some (st, t, ms, cb, x), Some (st', t', ms', cb', x') =>
      st = st' /\ t = t' /\ cb = cb' /\ x = x' /\ c = SUni st t "" ms cb /\ c' = SUni st t "" ms' cb /\ rmembers ms ms'
  | None, None => True
  | _, _ => False
  end.
Proof.
  intros H. destruct H; destruct v; simpl; auto. destruct (String.eqb tm "") eqn:Et; auto. apply String.eqb_eq in Et. subst tm.
  assert (rmembers ms ms') by (unfold rmembers; auto 10). auto 10.
Qed.

Lemma sim_select (rest rest' : schema -> list event -> out) (sr sr' : schema -> bool) st t tm ms ms' cb x l l' : rmembers ms ms' ->
  (forall c c' l l', reordered c c' -> rlog l l' -> sr c = true -> simR (sr' c' = true) (rview c c') (rest c l) (rest' c' l')) ->
  rlog l l' -> sup_select sr t ms x = true ->
  simR (sup_select sr' t ms' x = true) (rview (SUni st t tm ms cb) (SUni st t tm ms' cb))
    (select P rest st t ms cb x l) (select P' rest' st t ms' cb x l').
Proof.
  intros Hm Hr Hl Hs. pose proof (rm_uni st t tm cb Hm) as Hw. unfold select, sup_select in *.
  destruct (vtype_eqb (ty_of x) t); [|apply simR_err]. destruct (index_of x ms) as [i|] eqn:Hi; [|apply simR_err].
  destruct (nth_error ms i) as [[m c]|] eqn:Hn; [|apply simR_err].
  destruct (rm_index x Hm Hi Hn) as (i' & m' & c' & Hi' & Hn' & E & Hl' & Hc). rewrite Hi', Hn'.
  eapply simR_weak; [|eapply simR_andthen; [apply Hr; eauto|]]; [intros [H _]; exact H|].
  intros w w' l1 l1' Hv Hl1. cbn beta. eapply sim_end_union; eauto. apply (rk_fresh Hw).
Qed.

Lemma sim_body ps : Forall (fun kv => good_den (snd kv)) ps ->
  forall s s' empty ks ks' vals vals' l l', reordered s s' -> rkids (kid_decls s) (kid_decls s') ks ks' ->
  (forall st e ecb cb st' e' ecb' cb', s = SMp st e ecb cb -> s' = SMp st' e' ecb' cb' -> rpairs e e' vals vals') ->
  rlog l l' -> sup_body supported ps s = true ->
  simR (sup_body supported ps s' = true) (rview s s') (Spec.body P (den P) ps s empty ks vals l) (Spec.body P' (den P') ps s' empty ks' vals' l').
Proof.
  induction ps as [|[k v] ps IH]; intros Hd s s' empty ks ks' vals vals' l l' Hn Hk Hp Hl Hs.
  - cbn [Spec.body]. apply (@simR_weak _ True); [reflexivity|]. destruct s; try apply simR_err.
    + inversion Hn; subst. eapply sim_end_map; [auto|eapply Hp; eauto|auto].
    + destruct (ro_members_obj Hn) as (ms' & -> & Hm). apply sim_end_object; auto.
    + destruct (ro_members_uni Hn) as (ms' & -> & Hm). apply simR_ok; auto. apply rk_view; simpl; auto.
  - inversion Hd as [|? ? Hv Hd']; subst. cbn [snd] in Hv. specialize (IH Hd').
    assert (Hrest : forall c c' l l', reordered c c' -> rlog l l' -> sup_body supported ps c = true ->
      simR (sup_body supported ps c' = true) (rview c c') (Spec.body P (den P) ps c true (fresh_kids c) [] l) (Spec.body P' (den P') ps c' true (fresh_kids c') [] l')).
    { intros c c' l0 l0' Hc Hl0 Hs0. apply IH; auto using rk_fresh. intros; subst; constructor. }
    (* the value of a member or element *)
    assert (Hval : forall c c' t t' l l' (B : Type) (rB : B -> B -> Prop) K K', reordered c c' -> rlog l l' -> sup_value supported (sup_body supported ps) t c v = true ->
      (forall took w w' l l', rview c c' w w' -> rlog l l' -> (took = false -> sup_body supported ps t = true) ->
         simR (took = false -> sup_body supported ps t' = true) rB (K (took, w) l) (K' (took, w') l')) ->
      simR (sup_value supported (sup_body supported ps) t' c' v = true) rB
        (andthen (value_of P (den P) (fun c l => Spec.body P (den P) ps c true (fresh_kids c) [] l) c v l) K)
        (andthen (value_of P' (den P') (fun c l => Spec.body P' (den P') ps c true (fresh_kids c) [] l) c' v l') K')).
    { intros c c' t t' l0 l0' B rB K K' Hc Hl0 Hsv HK. unfold value_of, sup_value in *. pose proof (embedded_reordered v Hc) as He.
      destruct (embedded c v) as [[[[[st1 t1] ms1] cb1] x1]|], (embedded c' v) as [[[[[st2 t2] ms2] cb2] x2]|]; try contradiction.
      - destruct He as (<- & <- & <- & <- & -> & -> & Hm).
        eapply simR_weak; [|eapply simR_andthen with (rA := fun r r' => fst r = true /\ fst r' = true /\ rview (SUni st1 t1 "" ms1 cb1) (SUni st1 t1 "" ms2 cb1) (snd r) (snd r'))].
        2: { eapply simR_andthen; [eapply (@sim_select) with (tm := ""); eauto|]. intros w w' l1 l1' Hw Hl1. apply simR_ok; auto. }
        + intros [[H _] _]. exact H.
        + intros [b w] [b' w'] l1 l1' (E1 & E2 & Hw) Hl1. cbn [fst snd] in *. subst b b'. apply HK; auto. discriminate.
      - apply andb_true_iff in Hsv as [Hs1 Hs2].
        eapply simR_weak; [|eapply simR_andthen with (S2 := sup_body supported ps t' = true) (rA := fun r r' => fst r = false /\ fst r' = false /\ rview c c' (snd r) (snd r'))].
        2: { eapply simR_andthen; [apply Hv; eauto|]. intros w w' l1 l1' Hw Hl1. apply simR_ok; auto. }
        + intros [[H1 _] H2]. rewrite H1, H2. reflexivity.
        + intros [b w] [b' w'] l1 l1' (E1 & E2 & Hw) Hl1. cbn [fst snd] in *. subst b b'. eapply simR_weak; [|apply HK; auto]. auto. }
    cbn [Spec.body sup_body] in *. destruct s as [t cb|st e cb|st e ecb cb|knd ms ign cb|st t tm ms cb|]; try apply simR_err.
    + (* map *)
      assert (Hn' := Hn). inversion Hn' as [| | |? ? e' ? ? He| |]; subst. apply Hval with (t := SMp st e ecb cb) (l := l) (l' := l'); auto.
      intros took w w' l1 l1' Hw Hl1 Ht. cbn [fst snd].
      eapply simR_weak; [|eapply simR_andthen; [apply sim_end_elem; eauto|]]; [intros [_ H]; exact H|].
      intros vs vs' l2 l2' Hvs Hl2. cbn beta. destruct took.
      * eapply simR_weak; [|apply sim_end_map; auto]; discriminate.
      * eapply simR_weak; [|apply IH; auto]; [auto|]. intros; congruence.
    + (* object *)
      destruct (ro_members_obj Hn) as (ms' & -> & Hm). destruct (index_of (SStr k) ms) as [i|] eqn:Hx.
      * destruct (nth_error ms i) as [[m c]|] eqn:Hq; [|apply simR_err].
        destruct (rm_index (SStr k) Hm Hx Hq) as (i' & m' & c' & Hx' & Hq' & E & Hmm & Hc). rewrite Hx', Hq'.
        apply Hval with (t := SObj knd ms ign cb) (l := l) (l' := l'); auto.
        intros took w w' l1 l1' Hw Hl1 Ht. cbn [fst snd].
        assert (Hks : rkids ms ms' (set_nth i w ks) (set_nth i' w' ks')) by (eapply rk_set; eauto).
        destruct took.
        -- eapply simR_weak; [|apply sim_end_object; auto]; discriminate.
        -- eapply simR_weak; [|apply IH; auto]; auto.
      * destruct ign; [|apply simR_err]. rewrite (rm_unknown (SStr k) Hm Hx). apply andb_true_iff in Hs as [Hs1 Hs2].
        eapply simR_weak; [|apply IH; eauto]; [intros ->; rewrite Hs1; reflexivity].
    + (* union *)
      destruct (ro_members_uni Hn) as (ms' & -> & Hm).
      destruct (String.eqb tm ""); [apply simR_err|]. destruct (String.eqb k tm); [|apply simR_err].
      destruct v; try apply simR_err. eapply sim_select; eauto.
Qed.

Lemma sim_elems st e e' cb js : reordered e e' -> Forall good_den js ->
  forall empty vals vals' l l', Forall2 (rval e e') vals vals' -> rlog l l' ->
  forallb (fun j => if is_null j then is_value e else supported j e) js = true ->
  simR (forallb (fun j => if is_null j then is_value e' else supported j e') js = true) (rview (SArr st e cb) (SArr st e' cb))
    (elems P (den P) st e cb js empty vals l) (elems P' (den P') st e' cb js empty vals' l').
Proof.
  intros He. induction js as [|j js IH]; intros Hd empty vals vals' l l' Hv Hl Hs.
  - cbn [elems]. apply (@simR_weak _ True); [reflexivity|]. apply sim_end_array; auto.
  - inversion Hd as [|? ? Hj Hd']; subst. cbn [forallb] in Hs. apply andb_true_iff in Hs as [Hs1 Hs2].
    assert (IH' := IH Hd'). clear IH.
    assert (Hnn : forall empty, is_null j = false -> simR (forallb (fun j => if is_null j then is_value e' else supported j e') (j :: js) = true) (rview (SArr st e cb) (SArr st e' cb))
      (andthen (den P j e l) (fun w l => if st then match v_val w with Some v => andthen (l, storing P v) (fun v l => elems P (den P) st e cb js empty (vals ++ [v])%list l) | None => err l msg_unset end
         else elems P (den P) st e cb js empty vals l))
      (andthen (den P' j e' l') (fun w l => if st then match v_val w with Some v => andthen (l, storing P' v) (fun v l => elems P' (den P') st e' cb js empty (vals' ++ [v])%list l) | None => err l msg_unset end
         else elems P' (den P') st e' cb js empty vals' l))).
    { intros em Hnul. rewrite Hnul in Hs1.
      eapply simR_weak; [|eapply simR_andthen; [apply Hj; eauto|]].
      - intros [H1 H2]. cbn [forallb]. rewrite Hnul, H1. exact H2.
      - intros w w' l1 l1' Hw Hl1. cbn beta. destruct st; [|apply IH'; auto].
        destruct (rview_flags Hw) as (_ & _ & E). destruct (v_val w) as [x|]; [|apply simR_err].
        destruct (v_val w') as [x'|]; cbn [rheld] in E; [|contradiction]. rewrite (stored_fine HP).
        unfold storing. destruct (p_store P x); [apply simR_err|]. cbn [andthen]. apply IH'; auto. apply Forall2_app; auto. }
    destruct j; cbn [elems]; try (apply Hnn; reflexivity).
    eapply simR_weak; [|apply IH'; auto]. intros H. cbn [forallb is_null]. rewrite H. cbn [is_null] in Hs1. destruct He; try discriminate Hs1. reflexivity.
Qed.

Theorem reordered_den j : good_den j.
Proof.
  induction j as [|x|js IH|ps IH] using json_ind'; intros s s' l l' Hn Hl Hs.
  - cbn [den supported]. apply simR_weak with (S := True); [reflexivity|]. apply simR_ok; auto using rview_fresh.
  - destruct Hn; cbn [den supported] in *; try apply simR_err.
    + destruct (vtype_eqb (ty_of x) t); [|apply simR_err]. apply simR_weak with (S := True); [reflexivity|]. unfold end_value.
      apply (sim_invoke HP); auto; [apply (@rb_val (SVal t cb) (SVal t cb)); constructor|]. intros a a' l1 l1' _ _ _ Hl1. apply simR_ok; auto.
      apply rk_view; simpl; auto using rk_nil. constructor.
    + apply simR_weak with (S := True); [reflexivity|]. apply simR_ok; auto. apply rk_view; simpl; auto using rk_nil.
  - destruct Hn; cbn [den supported] in *; try apply simR_err.
    + apply simR_weak with (S := True); [auto|]. apply simR_ok; auto. apply rk_view; simpl; auto using rk_nil.
    + apply andb_true_iff in Hs as [Hs1 Hs2]. eapply simR_weak; [|apply sim_elems; eauto].
      intros H0. rewrite H0. destruct Hn; try discriminate Hs1; reflexivity.
  - assert (Hn' := Hn). destruct s as [t cb|st e cb|st e ecb cb|knd ms ign cb|st t tm ms cb|]; cbn [den supported] in *; try apply simR_err.
    + inversion Hn'; subst. apply sim_body; auto; [apply rk_nil|intros; constructor].
    + destruct (ro_members_obj Hn) as (ms' & -> & Hm). apply sim_body; auto; [exact (rk_fresh Hn)|intros; constructor].
    + destruct (ro_members_uni Hn) as (ms' & -> & Hm).
      destruct (String.eqb tm ""); [apply simR_err|]. apply sim_body; auto; [exact (rk_fresh Hn)|intros; constructor].
    + inversion Hn'; subst. apply simR_weak with (S := True); [auto|]. apply simR_ok; auto. apply rk_view; simpl; auto using rk_nil.
Qed.
End Sim.
End Shuffle.
