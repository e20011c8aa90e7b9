(** Unknown members which the declaration ignores, at any depth: their presence does
    not matter. *)

From Verif Require Import Spec Model Infra Total Safe Refine Main DenFacts Closed Blank Docs2.
Local Open Scope string_scope.
Set Implicit Arguments.

(** [grown s j j']: document [j'] is document [j] with further members in objects whose
    declaration (within [s]) ignores unknown members; an empty object stays empty.
    [grown_members s ps ps']: the same for the members of an object of declaration [s];
    the members after the type value of a union are those of the selected member. *)
Inductive grown : schema -> json -> json -> Prop :=
  | g_same s j : grown s j j
  | g_arr st e cb js js' :
      Forall2 (grown e) js js' -> grown (SArr st e cb) (JArr js) (JArr js')
  | g_obj s ps ps' :
      grown_members s ps ps' -> (ps = [] -> ps' = []) -> grown s (JObj ps) (JObj ps')
with grown_members : schema -> list (string * json) -> list (string * json) -> Prop :=
  | g_nil s : grown_members s [] []
  | g_new knd ms cb k v ps ps' :
      declared ms k = None ->
      grown_members (SObj knd ms true cb) ps ps' ->
      grown_members (SObj knd ms true cb) ps ((k, v) :: ps')
  | g_unknown knd ms ign cb k v ps ps' :
      declared ms k = None ->
      grown_members (SObj knd ms ign cb) ps ps' ->
      grown_members (SObj knd ms ign cb) ((k, v) :: ps) ((k, v) :: ps')
  | g_member knd ms ign cb k c v v' ps ps' :
      declared ms k = Some c -> embedded c v = None -> grown c v v' ->
      grown_members (SObj knd ms ign cb) ps ps' ->
      grown_members (SObj knd ms ign cb) ((k, v) :: ps) ((k, v') :: ps')
  | g_embedded knd ms ign cb k c v st t ums ucb x i m uc ps ps' :
      declared ms k = Some c -> embedded c v = Some (st, t, ums, ucb, x) ->
      index_of x ums = Some i -> nth_error ums i = Some (m, uc) ->
      grown_members uc ps ps' -> (ps = [] -> ps' = []) ->
      grown_members (SObj knd ms ign cb) ((k, v) :: ps) ((k, v) :: ps')
  | g_elem st e ecb cb k v v' ps ps' :
      embedded e v = None -> grown e v v' ->
      grown_members (SMp st e ecb cb) ps ps' ->
      grown_members (SMp st e ecb cb) ((k, v) :: ps) ((k, v') :: ps')
  | g_embedded_elem st' e ecb cb k v st t ums ucb x i m uc ps ps' :
      embedded e v = Some (st, t, ums, ucb, x) ->
      index_of x ums = Some i -> nth_error ums i = Some (m, uc) ->
      grown_members uc ps ps' -> (ps = [] -> ps' = []) ->
      grown_members (SMp st' e ecb cb) ((k, v) :: ps) ((k, v) :: ps')
  | g_union st t tm ums cb k x i m uc ps ps' :
      index_of x ums = Some i -> nth_error ums i = Some (m, uc) ->
      grown_members uc ps ps' -> (ps = [] -> ps' = []) ->
      grown_members (SUni st t tm ums cb) ((k, JSc x) :: ps) ((k, JSc x) :: ps').

Lemma grown_null s j j' : grown s j j' -> is_null j' = is_null j.
Proof. inversion 1; auto. Qed.

Lemma grown_embedded c v v' : grown c v v' -> embedded c v = None -> embedded c v' = None.
Proof. inversion 1; subst; auto; destruct c; auto. Qed.


Ltac named :=
  repeat match goal with
  | H : declared _ _ = Some _ |- _ => let n := fresh "Hd" in rename H into n; revert n
  | H : declared _ _ = None |- _ => let n := fresh "Hd" in rename H into n; revert n
  | H : embedded _ _ = _ |- _ => let n := fresh "He" in rename H into n; revert n
  | H : grown _ _ _ |- _ => let n := fresh "Hg" in rename H into n; revert n
  end; intros.

Section Grown.
Variable P : prog.
Notation body := (Spec.body P (den P)).

Definition GR (j' : json) : Prop := forall j s l, grown s j j' -> den P j' s l = den P j s l.

(** Whether members came before matters only at the end of the object. *)
Lemma body_flag ps s e1 e2 kids vals l : ps <> [] -> body ps s e1 kids vals l = body ps s e2 kids vals l.
Proof. destruct ps as [|[k v] ps]; [congruence|]. intros _. rewrite !body_cons. destruct s; reflexivity. Qed.

Lemma select_same rest rest' st t ms cb x i m uc l :
  index_of x ms = Some i -> nth_error ms i = Some (m, uc) -> (forall l, rest uc l = rest' uc l) ->
  select P rest st t ms cb x l = select P rest' st t ms cb x l.
Proof.
  intros Hi Hn H. unfold select. destruct (vtype_eqb (ty_of x) t); auto. rewrite Hi, Hn, H. auto.
Qed.

Lemma declared_at ms k c : declared ms k = Some c ->
  exists i m, index_of (SStr k) ms = Some i /\ nth_error ms i = Some (m, c).
Proof.
  unfold declared. destruct (index_of (SStr k) ms) as [i|]; [|discriminate].
  destruct (nth_error ms i) as [[m c']|] eqn:Hn; [|discriminate]. intros H. injection H as ->. eauto.
Qed.

Lemma undeclared_at ms k : declared ms k = None -> index_of (SStr k) ms = None.
Proof.
  unfold declared. destruct (index_of (SStr k) ms) as [i|] eqn:Hi; auto.
  destruct (index_of_nth _ _ Hi) as ([m c] & -> & _). discriminate.
Qed.

Lemma body_grown ps' : Forall (fun kv => GR (snd kv)) ps' -> forall ps s empty kids vals l,
  grown_members s ps ps' -> (empty = true -> ps = [] -> ps' = []) ->
  body ps' s empty kids vals l = body ps s empty kids vals l.
Proof.
  induction 1 as [|[k v'] ps' Hv _ IH]; intros ps s empty kids vals l HG HE.
  { inversion HG; subst. reflexivity. }
  simpl in Hv.
  assert (Hrest : forall uc q, grown_members uc q ps' -> (q = [] -> ps' = []) -> forall l0,
    body ps' uc true (fresh_kids uc) [] l0 = body q uc true (fresh_kids uc) [] l0) by (intros; apply IH; auto).
  assert (Hsome : forall q s0 kids vals l, grown_members s0 q ps' ->
    body ps' s0 false kids vals l = body q s0 false kids vals l) by (intros; apply IH; auto; discriminate).
  inversion HG; subst; clear HG; named.
  - rewrite body_cons. cbn zeta. rewrite undeclared_at by auto. rewrite (Hsome ps) by auto.
    destruct empty; auto. apply body_flag. intros ->. discriminate HE; auto.
  - rewrite !body_cons. cbn zeta. rewrite undeclared_at by auto. destruct ign; auto.
  - destruct (declared_at _ _ Hd) as (i & m & Hi & Hn). rewrite !body_cons. cbn zeta. rewrite Hi, Hn.
    unfold value_of. rewrite He, (grown_embedded Hg He), (Hv _ _ _ Hg).
    destruct (den P v c l) as [l1 [e|u]]; auto. cbn [andthen fst snd]. apply Hsome; auto.
  - destruct (declared_at _ _ Hd) as (i' & m' & Hi & Hn). rewrite !body_cons. cbn zeta. rewrite Hi, Hn.
    unfold value_of. rewrite He.
    rewrite (@select_same _ (fun c l => body ps0 c true (fresh_kids c) [] l) st t ums ucb x i m uc l) by auto.
    destruct (select P _ st t ums ucb x l) as [l1 [e|u]]; reflexivity.
  - rewrite !body_cons. cbn zeta.
    unfold value_of. rewrite He, (grown_embedded Hg He), (Hv _ _ _ Hg).
    destruct (den P v e l) as [l1 [ex|u]]; auto. cbn [andthen fst snd].
    destruct (end_map_elem P st ecb k u vals l1) as [l2 [ex|vals']]; auto. cbn [andthen]. apply Hsome; auto.
  - rewrite !body_cons. cbn zeta. unfold value_of. rewrite He.
    rewrite (@select_same _ (fun c l => body ps0 c true (fresh_kids c) [] l) st t ums ucb x i m uc l) by auto.
    destruct (select P _ st t ums ucb x l) as [l1 [ex|u]]; reflexivity.
  - rewrite !body_cons. cbn zeta. destruct (String.eqb tm ""); auto. destruct (String.eqb k tm); auto.
    apply select_same with i m uc; auto.
Qed.

Lemma elems_grown st e cb js' : Forall GR js' -> forall js empty vals l,
  Forall2 (grown e) js js' ->
  elems P (den P) st e cb js' empty vals l = elems P (den P) st e cb js empty vals l.
Proof.
  induction 1 as [|j' js' Hj _ IH]; intros js empty vals l HF; inversion HF as [|j ? js0 ? Hg HF']; subst; [reflexivity|].
  pose proof (grown_null Hg) as HN.
  destruct (is_null j) eqn:Hn.
  - destruct j; try discriminate. destruct j'; try discriminate. cbn [elems]. auto.
  - rewrite !elems_cons by (rewrite ?HN; auto). rewrite (Hj _ _ _ Hg). apply andthen_ext'. intros w l'.
    destruct st; auto. destruct (v_val w) as [v|]; auto. destruct (storing P v); cbn [andthen]; auto.
Qed.

Theorem den_grown j' : GR j'.
Proof.
  induction j' as [|x|js' IH|ps' IH] using json_ind'; intros j s l HG; inversion HG; subst; auto.
  - cbn [den]. apply elems_grown; auto.
  - destruct s; auto.
    + rewrite !den_obj by exact I. apply body_grown; auto.
    + rewrite !den_obj by exact I. apply body_grown; auto.
    + rewrite !den_uni. destruct (String.eqb tm ""); auto. apply body_grown; auto.
Qed.
End Grown.

(** If the larger document is supported, so is the smaller. *)
Lemma sup_grown j' : forall j s, grown s j j' -> supported j' s = true -> supported j s = true.
Proof.
  assert (Hbody : forall ps', Forall (fun kv => forall j s, grown s j (snd kv) -> supported (snd kv) s = true -> supported j s = true) ps' ->
     forall ps s, grown_members s ps ps' -> sup_body supported ps' s = true -> sup_body supported ps s = true).
  { induction 1 as [|[k v'] ps' Hv _ IH]; intros ps s HG HS; [inversion HG; subst; auto|]. simpl in Hv.
    assert (Hsel : forall t ums x i m uc q, index_of x ums = Some i -> nth_error ums i = Some (m, uc) ->
      grown_members uc q ps' ->
      sup_select (fun c => sup_body supported ps' c) t ums x = true ->
      sup_select (fun c => sup_body supported q c) t ums x = true).
    { intros t ums x i m uc q Hi Hn Hg. unfold sup_select. destruct (vtype_eqb (ty_of x) t); auto. rewrite Hi, Hn. eauto. }
    rewrite sup_body_cons in HS. cbn zeta in HS.
    inversion HG; subst; clear HG; named.
    - rewrite undeclared_at in HS by auto. apply andb_true_iff in HS. destruct HS. eauto.
    - rewrite sup_body_cons. cbn zeta. rewrite undeclared_at in * by auto. destruct ign; auto.
      apply andb_true_iff in HS. destruct HS as [-> HS]. cbn [andb]. eauto.
    - destruct (declared_at _ _ Hd) as (i & m & Hi & Hn). rewrite sup_body_cons. cbn zeta. rewrite Hi, Hn in *.
      unfold sup_value in *. rewrite He. rewrite (grown_embedded Hg He) in HS. apply andb_true_iff in HS. destruct HS as [H0 H1].
      rewrite (Hv _ _ Hg H0). cbn [andb]. eauto.
    - destruct (declared_at _ _ Hd) as (i' & m' & Hi & Hn). rewrite sup_body_cons. cbn zeta. rewrite Hi, Hn in *.
      unfold sup_value in *. rewrite He in *. eauto.
    - rewrite sup_body_cons. cbn zeta. unfold sup_value in *. rewrite He. rewrite (grown_embedded Hg He) in HS.
      apply andb_true_iff in HS. destruct HS as [H0 H1]. rewrite (Hv _ _ Hg H0). cbn [andb]. eauto.
    - rewrite sup_body_cons. cbn zeta. unfold sup_value in *. rewrite He in *. eauto.
    - rewrite sup_body_cons. cbn zeta. destruct (String.eqb tm ""); auto. destruct (String.eqb k tm); auto. eauto. }
  induction j' as [|x|js' IH|ps' IH] using json_ind'; intros j s HG HS; inversion HG; subst; auto.
  - simpl in *. apply andb_true_iff in HS. destruct HS as [-> HS]. cbn [andb]. clear HG.
    match goal with H : Forall2 _ _ _ |- _ => rename H into HF0 end. revert js HF0 HS. induction IH as [|j' js' Hj _ IH']; intros js HF HS; inversion HF as [|j ? js0 ? Hg HF']; subst; auto.
    simpl in *. apply andb_true_iff in HS. destruct HS as [H0 H1]. apply andb_true_iff. split; auto.
    rewrite (grown_null Hg) in H0. destruct (is_null j); auto.
  - destruct s; auto; cbn [supported] in *; eauto.
    + destruct (String.eqb tm ""); eauto.
    + match goal with H : grown_members SIgn _ _ |- _ => inversion H; subst end. auto.
Qed.
