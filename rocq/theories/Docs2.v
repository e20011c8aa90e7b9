(** Property theorems, part 2 (C11-C20), with their proofs. *)

From Verif Require Import Spec Model Infra Total Safe Refine Main Api ApiProofs History ApiFacts
  Outcome DenFacts Closed Accept Complete Order Calls Members Free Round Blank Access Findings Docs1.
From Coq Require Import Permutation.
Local Open Scope string_scope.
Set Implicit Arguments.

(** ** Helpers *)

(** Supported documents: members one after the other. *)
Lemma sup_body_cons k v ps s :
  sup_body supported ((k, v) :: ps) s =
      let rest c := sup_body supported ps c in
      match s with
      | SObj _ ms ign _ =>
          match index_of (SStr k) ms with
          | Some i =>
              match nth_error ms i with Some (_, c) => sup_value supported rest s c v | None => true end
          | None => if ign then ignorable v && rest s else true
          end
      | SMp _ e _ _ => sup_value supported rest s e v
      | SUni _ t tm ms _ =>
          if String.eqb tm "" then true
          else if String.eqb k tm then
            match v with
            | JSc x => sup_select rest t ms x
            | JArr _ => true
            | JObj _ | JNull => false
            end
          else true
      | _ => true
      end.
Proof. destruct s; reflexivity. Qed.

Lemma sup_drop ok ms ign cb ps1 k v ps2 : own ms ps1 ->
  match declared ms k with Some c => embedded c v = None | None => ign = true end ->
  supported (JObj (ps1 ++ (k, v) :: ps2)) (SObj ok ms ign cb) = true ->
  supported (JObj (ps1 ++ ps2)) (SObj ok ms ign cb) = true.
Proof.
  intros Ho Hk. cbn [supported].
  induction Ho as [|[key v'] ps1 Hkv _ IH]; cbn [app]; rewrite sup_body_cons; cbn zeta.
  - unfold declared in Hk. destruct (index_of (SStr k) ms) as [i|] eqn:Hi.
    + destruct (nth_error ms i) as [[m c]|] eqn:Hn.
      * unfold sup_value. rewrite Hk. intros H. apply andb_true_iff in H. tauto.
      * destruct (index_of_nth _ _ Hi) as (mp & Hn' & _). congruence.
    + subst ign. intros H. apply andb_true_iff in H. tauto.
  - rewrite sup_body_cons. cbn zeta. unfold declared in Hkv. simpl in Hkv.
    destruct (index_of (SStr key) ms) as [i|].
    + destruct (nth_error ms i) as [[m c]|]; auto. unfold sup_value. rewrite Hkv.
      intros H. apply andb_true_iff in H. destruct H as [H1 H2]. rewrite H1. simpl. auto.
    + destruct ign; auto. intros H. apply andb_true_iff in H. destruct H as [H1 H2]. rewrite H1. simpl. auto.
Qed.

Lemma sup_blank j : forall s, supported j s = true -> supported (blank j s) s = true.
Proof.
  assert (Hbody : forall ps, Forall (fun kv => forall s, supported (snd kv) s = true -> supported (blank (snd kv) s) s = true) ps ->
     forall s, sup_body supported ps s = true -> sup_body supported (blank_body blank ps s) s = true).
  { induction 1 as [|[k v] ps Hv _ IH]; intros s H; [auto|]. rewrite blank_body_cons. cbn zeta.
    rewrite sup_body_cons in H. cbn zeta in H. simpl in Hv.
    assert (Hsel : forall t ms x, sup_select (fun c => sup_body supported ps c) t ms x = true ->
       sup_select (fun c => sup_body supported (blank_rest (fun c => blank_body blank ps c) ps ms x) c) t ms x = true).
    { intros t ms x. unfold sup_select, blank_rest. destruct (vtype_eqb (ty_of x) t); auto.
      destruct (index_of x ms) as [i|]; auto. destruct (nth_error ms i) as [[m c]|]; auto. }
    destruct s; auto.
    - unfold sup_value in H. destruct (embedded s v) as [[[[[st t] ums] ucb] x]|] eqn:He; rewrite sup_body_cons; cbn zeta;
        unfold sup_value.
      + rewrite He. auto.
      + rewrite (embedded_blank _ _ He). apply andb_true_iff in H. destruct H as [H1 H2]. rewrite (Hv _ H1). simpl. auto.
    - destruct (index_of (SStr k) ms) as [i|] eqn:Hi.
      + destruct (nth_error ms i) as [[m c]|] eqn:Hn.
        * unfold sup_value in H. destruct (embedded c v) as [[[[[st t] ums] ucb] x]|] eqn:He; rewrite sup_body_cons; cbn zeta;
            rewrite Hi, Hn; unfold sup_value.
          -- rewrite He. auto.
          -- rewrite (embedded_blank _ _ He). apply andb_true_iff in H. destruct H as [H1 H2]. rewrite (Hv _ H1). simpl. auto.
        * rewrite sup_body_cons. cbn zeta. rewrite Hi, Hn. auto.
      + destruct ign; rewrite sup_body_cons; cbn zeta; rewrite Hi; auto.
        apply andb_true_iff in H. destruct H as [H1 H2]. simpl. auto.
    - destruct v; rewrite sup_body_cons; cbn zeta; auto. destruct (String.eqb tm ""); auto.
      destruct (String.eqb k tm); auto. }
  induction j as [|x|js IH|ps IH] using json_ind'; intros s H; auto.
  - destruct s; auto. simpl in *. apply andb_true_iff in H. destruct H as [-> H]. simpl.
    rewrite forallb_forall in *. intros j' Hj. apply in_map_iff in Hj. destruct Hj as (j & <- & Hj).
    rewrite blank_null. specialize (H j Hj). destruct (is_null j); auto.
    rewrite Forall_forall in IH. auto.
  - destruct s; auto; cbn [blank supported] in *; auto. destruct (String.eqb tm ""); auto.
Qed.

(** Every member of an accepted document is acceptable on its own. *)
Lemma parsed_pairs (tk : tokenizer) g yerr P k ms ign cb (a : api tk) M b bufs ps l w :
  reads g yerr (SObj k ms ign cb) a M b bufs (JObj ps) ->
  supported (JObj ps) (SObj k ms ign cb) = true -> members_free P ms ->
  doc g yerr P M b bufs a = Parsed l w -> Forall (pair_ok P ms ign) ps.
Proof.
  intros Hr Hs Hp H. rewrite (doc_expected P Hr Hs) in H.
  destruct (den P (JObj ps) (SObj k ms ign cb) (past a)) as [l' [x|w']] eqn:Q; [discriminate|].
  eapply obj_den_free_inv; eauto.
Qed.

(** ** C11 *)

(** By default an unknown member is an error, whatever surrounds it ([own]: no
    earlier member is an embedded union, which would take the rest of the object).
    The message names it, if everything before it is acceptable. *)
Lemma c11_unknown_rejected : forall (tk : tokenizer) g yerr P k ms cb (a : api tk) M b bufs ps1 key v ps2,
  reads g yerr (SObj k ms false cb) a M b bufs (JObj (ps1 ++ (key, v) :: ps2)) ->
  supported (JObj (ps1 ++ (key, v) :: ps2)) (SObj k ms false cb) = true ->
  own ms ps1 -> declared ms key = None ->
  exists l m, doc g yerr P M b bufs a = Failed l m /\
    (members_free P ms -> Forall (pair_ok P ms false) ps1 ->
       l = (past a ++ flat_map (pair_events P ms) ps1)%list /\ m = c_str ("Unexpected member " ++ key)).
Proof.
  intros tk g yerr P k ms cb a M b bufs ps1 key v ps2 Hr Hs Ho Hd. rewrite (doc_expected P Hr Hs).
  destruct (members P ms false ps1 (map (fun mp => fresh (snd mp)) ms) (past a)) as [l1 [e|kids]] eqn:Hm.
  - exists l1, (caught e). split.
    + rewrite den_obj by exact I. rewrite body_app by auto. cbn [fresh_kids fresh v_kids]. rewrite Hm. reflexivity.
    + intros Hp Hf. destruct (members_ok Hp Hf (map (fun mp => fresh (snd mp)) ms) (past a)) as (kids & Hk).
      rewrite Hk in Hm. discriminate.
  - eexists l1, _. rewrite (@unknown_is_error P k ms cb ps1 key v ps2 _ l1 kids Ho Hd Hm). split; [reflexivity|].
    intros Hp Hf. destruct (members_ok Hp Hf (map (fun mp => fresh (snd mp)) ms) (past a)) as (kids' & Hk).
    rewrite Hk in Hm. inversion Hm; subst. auto.
Qed.

(** With Reaction::Ignore: the document without the member has the same outcome
    (values, error, callbacks with their arguments). *)
Lemma c11_unknown_ignored : forall (tk : tokenizer) g yerr P k ms cb (a : api tk) M b bufs M' b' bufs' ps1 key v ps2,
  reads g yerr (SObj k ms true cb) a M b bufs (JObj (ps1 ++ (key, v) :: ps2)) ->
  supported (JObj (ps1 ++ (key, v) :: ps2)) (SObj k ms true cb) = true ->
  reads g yerr (SObj k ms true cb) a M' b' bufs' (JObj (ps1 ++ ps2)) ->
  own ms ps1 -> declared ms key = None -> (ps1 ++ ps2)%list <> [] ->
  doc g yerr P M b bufs a = doc g yerr P M' b' bufs' a.
Proof.
  intros tk g yerr P k ms cb a M b bufs M' b' bufs' ps1 key v ps2 H1 Hs H2 Ho Hd Hne.
  rewrite (doc_expected P H1 Hs), (doc_expected P H2).
  - rewrite unknown_is_absent; auto.
  - eapply sup_drop; eauto. rewrite Hd. auto.
Qed.

(** At any depth: replacing the values of all ignored members by null ([blank])
    does not change the outcome. *)
Lemma c11_ignored_values : forall (tk : tokenizer) g yerr P s (a : api tk) M b bufs M' b' bufs' j,
  reads g yerr s a M b bufs j -> supported j s = true ->
  reads g yerr s a M' b' bufs' (blank j s) ->
  doc g yerr P M b bufs a = doc g yerr P M' b' bufs' a.
Proof.
  intros tk g yerr P s a M b bufs M' b' bufs' j H1 Hs H2.
  rewrite (doc_expected P H1 Hs), (doc_expected P H2), den_blank; auto. apply sup_blank; auto.
Qed.

(** False if the ignored value has a null inside: "[~]" makes the document fail,
    and in "{Y~A5}" the member A of the ignored object is taken for the parser's
    own member (callback 7 runs with 5). *)
Lemma c11_nested_null_refuted :
  exists s, s = SObj OPlain [(mkM (SStr "A") true None, SVal TyInt (Some 7))] true None /\
    (exists w, result (docs yes "{X[1]}" (new s)) = Parsed [] w) /\
    (exists m, result (docs yes "{X[~]}" (new s)) = Failed [] m) /\
    (exists w, result (docs yes "{X{Y1A5}}" (new s)) = Parsed [] w) /\
    (exists m, result (docs yes "{X{Y~A5}}" (new s)) = Failed [Ev 7 (OVal (VSc (SInt 5)))] m).
Proof.
  eexists. split; [reflexivity|].
  repeat match goal with |- _ /\ _ => split end; eexists; vm_compute; reflexivity.
Qed.

(** ** C12 *)

(** The member callbacks are invoked in the other order, nothing else changes: [last]
    is the invocation of the object's own callback. *)
Lemma end_log P k ms cb empty kids l l' w :
  end_object P k ms cb empty kids l = (l', inr w) -> exists last, l' = (l ++ last)%list /\
    (forall m, (forall c, cb = Some c -> unaware P c) \/ m = l ->
       end_object P k ms cb empty kids m = ((m ++ last)%list, inr w)) /\
    map ev_id last = if empty then [] else opt_id cb.
Proof.
  unfold end_object. destruct empty.
  { intros H. inversion H; subst. exists []. rewrite app_nil_r. split; [auto|]. split; auto.
    intros m _. rewrite app_nil_r. auto. }
  assert (Hinv : forall o (f : cbact -> view) l l' w,
    invoke P cb o msg_cb_false l (fun x l => (l, inr (f x))) = (l', inr w) -> exists last, l' = (l ++ last)%list /\
      (forall m, (forall c, cb = Some c -> unaware P c) \/ m = l ->
         invoke P cb o msg_cb_false m (fun x l => (l, inr (f x))) = ((m ++ last)%list, inr w)) /\
      map ev_id last = opt_id cb).
  { clear. intros o f l l' w H. destruct cb as [c|]; cbn [invoke] in *.
    - destruct (a_res (p_cb P c l o)) eqn:Ha; unfold err in H; try discriminate. inversion H; subst.
      exists [Ev c o]. split; [auto|]. split; [|auto]. intros m [Hc| ->].
      + rewrite (Hc c eq_refl m l o), Ha. auto.
      + rewrite Ha. auto.
    - inversion H; subst. exists []. rewrite app_nil_r. split; [auto|]. split; [|auto].
      intros m _. rewrite app_nil_r. auto. }
  destruct k; [destruct (missing ms kids)|destruct (member_values P ms kids)|destruct (missing ms kids)];
    unfold err; try discriminate; intros H; exact (Hinv _ _ _ _ _ H).
Qed.

Lemma c12_member_order : forall (tk : tokenizer) g yerr P k ms ign cb (a : api tk) M b bufs M' b' bufs' ps qs l w,
  reads g yerr (SObj k ms ign cb) a M b bufs (JObj ps) ->
  reads g yerr (SObj k ms ign cb) a M' b' bufs' (JObj qs) ->
  supported (JObj ps) (SObj k ms ign cb) = true -> supported (JObj qs) (SObj k ms ign cb) = true ->
  members_free P ms -> (forall c, cb = Some c -> unaware P c) -> named ms ->
  Permutation ps qs -> NoDup (map fst ps) ->
  doc g yerr P M b bufs a = Parsed l w ->
  exists last, map ev_id last = (if match ps with [] => true | _ => false end then [] else opt_id cb) /\
    l = (past a ++ flat_map (pair_events P ms) ps ++ last)%list /\
    doc g yerr P M' b' bufs' a = Parsed (past a ++ flat_map (pair_events P ms) qs ++ last) w.
Proof.
  intros tk g yerr P k ms ign cb a M b bufs M' b' bufs' ps qs l w H1 H2 S1 S2 Hp Hc Hn Hperm Hnd H.
  assert (F1 : Forall (pair_ok P ms ign) ps) by (eapply parsed_pairs; eauto).
  assert (F2 : Forall (pair_ok P ms ign) qs).
  { rewrite Forall_forall in *. intros x Hx. apply F1. eapply Permutation_in; [apply Permutation_sym; eauto|auto]. }
  rewrite (doc_expected P H1 S1), (obj_free k cb (past a) Hp Hn F1) in H.
  destruct (end_object P k ms cb _ (map (member_view P ps) ms) _) as [l' [x|w']] eqn:Q; [discriminate|].
  inversion H; subst. destruct (end_log _ _ _ _ _ _ _ Q) as (last & -> & Hall & Hid).
  exists last. split; [exact Hid|]. split; [rewrite app_assoc; auto|].
  rewrite (doc_expected P H2 S2), (obj_free k cb (past a) Hp Hn F2).
  rewrite (@member_view_ext P qs ps) by (intros; symmetry; apply last_of_perm; auto).
  assert (Hnil : match ps with [] => true | _ => false end = match qs with [] => true | _ => false end).
  { destruct ps, qs; auto; [apply Permutation_nil in Hperm|apply Permutation_sym, Permutation_nil in Hperm]; discriminate. }
  rewrite Hnil in Hall. rewrite (Hall (past a ++ flat_map (pair_events P ms) qs)%list (or_introl Hc)).
  rewrite app_assoc. reflexivity.
Qed.

(** If the members have no callbacks, the object's own callback may also depend on the
    past: the outcome is the same. *)
Lemma c12_member_order_same : forall (tk : tokenizer) g yerr P k ms ign cb (a : api tk) M b bufs M' b' bufs' ps qs l w,
  reads g yerr (SObj k ms ign cb) a M b bufs (JObj ps) ->
  reads g yerr (SObj k ms ign cb) a M' b' bufs' (JObj qs) ->
  supported (JObj ps) (SObj k ms ign cb) = true -> supported (JObj qs) (SObj k ms ign cb) = true ->
  members_plain ms = true -> named ms ->
  Permutation ps qs -> NoDup (map fst ps) ->
  doc g yerr P M b bufs a = Parsed l w ->
  doc g yerr P M' b' bufs' a = Parsed l w.
Proof.
  intros tk g yerr P k ms ign cb a M b bufs M' b' bufs' ps qs l w H1 H2 S1 S2 Hp Hn Hperm Hnd H.
  assert (F1 : Forall (pair_ok P ms ign) ps) by (eapply parsed_pairs; eauto using members_plain_free).
  assert (F2 : Forall (pair_ok P ms ign) qs).
  { rewrite Forall_forall in *. intros x Hx. apply F1. eapply Permutation_in; [apply Permutation_sym; eauto|auto]. }
  rewrite <- H. rewrite (doc_expected P H1 S1), (doc_expected P H2 S2).
  rewrite !(obj_den k cb (past a) Hp Hn) by eauto.
  rewrite (@member_view_ext P ps qs) by (intros; apply last_of_perm; auto).
  assert (Hnil : match ps with [] => true | _ => false end = match qs with [] => true | _ => false end).
  { destruct ps, qs; auto; [apply Permutation_nil in Hperm|apply Permutation_sym, Permutation_nil in Hperm]; discriminate. }
  rewrite Hnil. reflexivity.
Qed.

(** ** C13 *)

(** The members of a parsed object show the last occurrence of their key, unless the
    object's callback pops them.  (The members of an SAutoObject are emptied into its
    tuple.) *)
Lemma c13_last_occurrence : forall (tk : tokenizer) g yerr P k ms ign cb (a : api tk) M b bufs ps l w,
  k = OPlain \/ k = OCustom -> (forall c l o, cb = Some c -> a_pops (p_cb P c l o) = []) ->
  reads g yerr (SObj k ms ign cb) a M b bufs (JObj ps) ->
  supported (JObj ps) (SObj k ms ign cb) = true ->
  members_free P ms -> named ms ->
  doc g yerr P M b bufs a = Parsed l w ->
  forall i m c n, nth_error ms i = Some (m, c) -> m_name m = SStr n ->
  nth_error (v_kids w) i =
  Some match last_of n ps with
       | Some j => match meaning P c j with inr w => w | inl _ => fresh c end
       | None => fresh c
       end.
Proof.
  intros tk g yerr P k ms ign cb a M b bufs ps l w Hk Hcb Hr Hs Hp Hn H i m c n Hi Hname.
  assert (F1 : Forall (pair_ok P ms ign) ps) by (eapply parsed_pairs; eauto).
  rewrite (doc_expected P Hr Hs), (obj_free k cb (past a) Hp Hn F1) in H.
  assert (Hw : v_kids w = map (member_view P ps) ms).
  { unfold end_object in H. destruct ps as [|kv ps].
    - inversion H. reflexivity.
    - destruct Hk as [->| ->]; destruct (missing ms _); try discriminate; rewrite expected_invoke in H;
        unfold finishing in H; (destruct cb as [x|]; [|inversion H; reflexivity]);
        destruct (a_res _); try discriminate; inversion H; unfold pops; rewrite (Hcb x); reflexivity. }
  rewrite Hw, nth_error_map, Hi. cbn [option_map]. f_equal. unfold member_view. cbn [fst snd]. rewrite Hname.
  destruct (last_of n ps); reflexivity.
Qed.

(** An occurrence that is followed by another one may as well be left out: only the
    callback invocations for its own value disappear. *)
Lemma sup_dropped P k ms ign cb ps1 key v ps2 :
  supported (JObj (ps1 ++ (key, v) :: ps2)) (SObj k ms ign cb) = true -> members_free P ms ->
  Forall (pair_ok P ms ign) (ps1 ++ (key, v) :: ps2) ->
  supported (JObj (ps1 ++ ps2)) (SObj k ms ign cb) = true.
Proof.
  intros S1 Hp F1. eapply sup_drop; eauto; [eapply own_free; eauto|]. apply Forall_app in F1. destruct F1 as [_ Fb].
  inversion Fb as [|? ? Hkv _]; subst. unfold pair_ok in Hkv. simpl in Hkv.
  destruct (declared ms key) as [c|] eqn:Hd; auto. unfold declared in Hd.
  destruct (index_of (SStr key) ms) as [i|]; [|discriminate].
  destruct (nth_error ms i) as [[m c']|] eqn:Hi; [|discriminate]. inversion Hd; subst.
  apply not_emb_embedded. destruct (members_free_nth _ Hp Hi); auto.
Qed.

Lemma dropped_views P ms ps1 key v ps2 : In key (map fst ps2) ->
  map (member_view P (ps1 ++ (key, v) :: ps2)) ms = map (member_view P (ps1 ++ ps2)) ms.
Proof.
  intros Hin. apply member_view_ext. intros k'. rewrite !last_of_app. simpl.
  destruct (last_of k' ps2) eqn:Hl; auto.
  destruct (String.eqb_spec k' key) as [->|]; auto. exfalso. apply last_of_none in Hl. auto.
Qed.

Lemma c13_earlier_dropped : forall (tk : tokenizer) g yerr P k ms ign cb (a : api tk) M b bufs M' b' bufs' ps1 key v ps2 l w,
  reads g yerr (SObj k ms ign cb) a M b bufs (JObj (ps1 ++ (key, v) :: ps2)) ->
  reads g yerr (SObj k ms ign cb) a M' b' bufs' (JObj (ps1 ++ ps2)) ->
  supported (JObj (ps1 ++ (key, v) :: ps2)) (SObj k ms ign cb) = true ->
  members_free P ms -> (forall c, cb = Some c -> unaware P c) -> named ms -> In key (map fst ps2) ->
  doc g yerr P M b bufs a = Parsed l w ->
  exists l1 l2, l = (l1 ++ pair_events P ms (key, v) ++ l2)%list /\
    doc g yerr P M' b' bufs' a = Parsed (l1 ++ l2) w.
Proof.
  intros tk g yerr P k ms ign cb a M b bufs M' b' bufs' ps1 key v ps2 l w H1 H2 S1 Hp Hc Hn Hin H.
  assert (F1 : Forall (pair_ok P ms ign) (ps1 ++ (key, v) :: ps2)) by (eapply parsed_pairs; eauto).
  assert (F2 : Forall (pair_ok P ms ign) (ps1 ++ ps2)).
  { apply Forall_app in F1. destruct F1 as [Fa Fb]. inversion Fb; subst. apply Forall_app; auto. }
  pose proof (@sup_dropped P k ms ign cb ps1 key v ps2 S1 Hp F1) as S2.
  rewrite (doc_expected P H1 S1), (obj_free k cb (past a) Hp Hn F1) in H.
  replace (match (ps1 ++ (key, v) :: ps2)%list with [] => true | _ => false end) with false in H
    by (destruct ps1; auto).
  rewrite dropped_views in H by auto.
  destruct (end_object P k ms cb false (map (member_view P (ps1 ++ ps2)) ms) _) as [l' [x|w']] eqn:Q; [discriminate|].
  inversion H; subst. destruct (end_log _ _ _ _ _ _ _ Q) as (last & -> & Hall & Hid).
  exists (past a ++ flat_map (pair_events P ms) ps1)%list, (flat_map (pair_events P ms) ps2 ++ last)%list.
  split; [rewrite flat_map_app; cbn [flat_map]; rewrite <- !app_assoc; auto|].
  rewrite (doc_expected P H2 S2), (obj_free k cb (past a) Hp Hn F2).
  replace (match (ps1 ++ ps2)%list with [] => true | _ => false end) with false
    by (destruct ps1, ps2; simpl in *; tauto).
  rewrite (Hall _ (or_introl Hc)). rewrite flat_map_app, <- !app_assoc. reflexivity.
Qed.

(** If the members have no callbacks: the outcome is the same, whatever the object's own
    callback looks at. *)
Lemma c13_earlier_dropped_same : forall (tk : tokenizer) g yerr P k ms ign cb (a : api tk) M b bufs M' b' bufs' ps1 key v ps2 l w,
  reads g yerr (SObj k ms ign cb) a M b bufs (JObj (ps1 ++ (key, v) :: ps2)) ->
  reads g yerr (SObj k ms ign cb) a M' b' bufs' (JObj (ps1 ++ ps2)) ->
  supported (JObj (ps1 ++ (key, v) :: ps2)) (SObj k ms ign cb) = true ->
  members_plain ms = true -> named ms -> In key (map fst ps2) ->
  doc g yerr P M b bufs a = Parsed l w ->
  doc g yerr P M' b' bufs' a = Parsed l w.
Proof.
  intros tk g yerr P k ms ign cb a M b bufs M' b' bufs' ps1 key v ps2 l w H1 H2 S1 Hp Hn Hin H.
  assert (Hf : members_free P ms) by (apply members_plain_free; auto).
  assert (F1 : Forall (pair_ok P ms ign) (ps1 ++ (key, v) :: ps2)) by (eapply parsed_pairs; eauto).
  assert (F2 : Forall (pair_ok P ms ign) (ps1 ++ ps2)).
  { apply Forall_app in F1. destruct F1 as [Fa Fb]. inversion Fb; subst. apply Forall_app; auto. }
  pose proof (@sup_dropped P k ms ign cb ps1 key v ps2 S1 Hf F1) as S2.
  rewrite <- H. rewrite (doc_expected P H1 S1), (doc_expected P H2 S2).
  rewrite !(obj_den k cb (past a) Hp Hn) by eauto. rewrite dropped_views by auto.
  destruct ps1, ps2; simpl in *; tauto.
Qed.

(** ** C14 *)
Lemma c14_empty_object : forall (tk : tokenizer) g yerr P s (a : api tk) M b bufs,
  match s with SObj _ _ _ _ => True | SUni _ _ tm _ _ => tm <> "" | _ => False end ->
  reads g yerr s a M b bufs (JObj []) ->
  doc g yerr P M b bufs a = Parsed (past a) (fresh s) /\ v_set (fresh s) = false /\ v_empty (fresh s) = true.
Proof.
  intros tk g yerr P s a M b bufs Hs Hr. destruct s; try contradiction.
  - rewrite (doc_expected P Hr eq_refl). auto.
  - rewrite (doc_expected P Hr); [|simpl; destruct (String.eqb tm ""); auto]. cbn [den].
    destruct (String.eqb_spec tm ""); [congruence|]. auto.
Qed.

(** ** C15 *)

(** get<n>() and pop<n>() of an object or union whose member n is of a storing
    class, in any state. *)
Lemma c15_get_pop : forall n p m q, member_at n p = Some (m, q) -> stored q <> None ->
  (is_set q = true -> exists v,
     get_value q = Some v /\ get_nth n p = GVal v /\ fst (pop_nth n p) = GVal v /\
     exists q', member_at n (snd (pop_nth n p)) = Some (m, q') /\ is_set q' = false) /\
  (is_set q = false ->
     (forall d, m_def m = Some d -> get_nth n p = GVal d /\ pop_nth n p = (GVal d, p)) /\
     (m_def m = None -> get_nth n p = GThrow msg_unset /\ pop_nth n p = (GThrow msg_unset, p))).
Proof.
  intros n p m q Hm Hq. destruct (stored q) as [v|] eqn:Hst; [|congruence]. split.
  - intros Hset. exists v. destruct (get_nth_set _ _ Hm Hst Hset) as [H1 H2]. rewrite H1, H2. cbn [fst snd].
    repeat match goal with |- _ /\ _ => split end; auto.
    + unfold get_value. rewrite Hset. auto.
    + exists (set_set false q). split; [eapply member_at_set; eauto|].
      unfold is_set, set_set. destruct q; auto.
  - intros Hset. split.
    + intros d Hd. eapply get_nth_default; eauto.
    + intros Hd. eapply get_nth_unset; eauto.
Qed.

Lemma stores_stored p : stores (schema_of p) = true -> stored p <> None.
Proof. destruct p; simpl; try discriminate; try destruct k; try destruct store; simpl; congruence. Qed.

(** After a parsed document: get<n>() gives the value of the last occurrence of
    the member's key, the default if there is none or it is null, and throws if
    there is no default. *)
Lemma c15_get_after_document : forall (tk : tokenizer) g yerr P ms ign cb (a a' : api tk) M b bufs ps,
  (forall c l o, cb = Some c -> a_pops (p_cb P c l o) = []) ->
  reads g yerr (SObj OPlain ms ign cb) a M b bufs (JObj ps) ->
  supported (JObj ps) (SObj OPlain ms ign cb) = true ->
  members_free P ms -> named ms ->
  document (lift P) g yerr M (b :: bufs) a = AOk a' ->
  forall i m c n, nth_error ms i = Some (m, c) -> m_name m = SStr n -> stores c = true ->
  get_nth i (m_root (a_m a')) =
  let w := match last_of n ps with
           | Some j => match meaning P c j with inr w => w | inl _ => fresh c end
           | None => fresh c
           end in
  if v_set w then match v_val w with Some v => GVal v | None => GThrow msg_unset end
  else match m_def m with Some d => GVal d | None => GThrow msg_unset end.
Proof.
  intros tk g yerr P ms ign cb a a' M b bufs ps Hcb Hr Hs Hp Hn H i m c n Hi Hname Hst.
  destruct (@doc_next tk g yerr P _ _ _ _ _ _ _ Hr Hs H) as [Hh _].
  apply history_inv in Hh. destruct Hh as ((Hsch & _) & _).
  assert (Hd : doc g yerr P M b bufs a = Parsed (m_log (a_m a')) (view_of (m_root (a_m a')))).
  { unfold doc. rewrite H. reflexivity. }
  pose proof (@c13_last_occurrence tk g yerr P OPlain ms ign cb a M b bufs ps _ _ (or_introl eq_refl) Hcb
                Hr Hs Hp Hn Hd i m c n Hi Hname) as Hw.
  destruct (m_root (a_m a')) as [| | |b0 k0 v0 ms0 ig0 ign0 cb0| |] eqn:Hroot; try discriminate.
  simpl in Hsch. inversion Hsch; subst.
  destruct (nth_error ms0 i) as [[m' q]|] eqn:Hq.
  - rewrite nth_error_map, Hq in Hi. simpl in Hi. inversion Hi; subst.
    destruct (stored q) as [v|] eqn:Hsq; [|exfalso; eapply stores_stored; eauto].
    destruct (@get_nth_view i (PObj b0 OPlain v0 ms0 ig0 ign cb) m q v) as (w & Hw1 & Hw2); auto.
    rewrite Hw2. rewrite Hw in Hw1. inversion Hw1. reflexivity.
  - rewrite nth_error_map, Hq in Hi. discriminate.
Qed.

(** "get() throws after pop()" (value.h, object.h): false for a member with a
    default value. *)
Lemma c15_get_after_pop_refuted :
  exists s text a, docs yes text (new s) = AOk a /\
    let p := m_root (a_m a) in
    fst (pop_nth 0 p) = GVal (VSc (SInt 5)) /\
    get_nth 0 (snd (pop_nth 0 p)) = GVal (VSc (SInt 4)).
Proof.
  exists obj_def, "{A5}". pose proof b7_get_after_pop as H.
  destruct (docs yes "{A5}" (new obj_def)) as [a| | | |]; try contradiction.
  exists a. split; auto. simpl in *. tauto.
Qed.

(** ** C16 *)
Lemma c16_get_pop_contract : forall p, stored p <> None ->
  (is_set p = true ->
     exists v p', stored p = Some v /\ get_value p = Some v /\ pop_value p = Some (v, p') /\
       is_set p' = false /\ get_value p' = None /\ pop_value p' = None /\
       is_empty p' = is_empty p /\ v_kids (view_of p') = v_kids (view_of p) /\ schema_of p' = schema_of p) /\
  (is_set p = false -> get_value p = None /\ pop_value p = None).
Proof. intros p H. apply pop_spec; auto. Qed.

(** ** C17 *)

(** The member whose name equals the type value parses the rest, exactly as if it
    were a parser of its own (Parser [a'], with the same callback history) given
    the rest as an object; then the union ends. *)
Lemma c17_union_selects : forall (tk : tokenizer) g yerr P st t tm ms cb (a a' : api tk) M b bufs M' b' bufs' x rest i m c,
  tm <> "" -> reads g yerr (SUni st t tm ms cb) a M b bufs (JObj ((tm, JSc x) :: rest)) ->
  supported (JObj ((tm, JSc x) :: rest)) (SUni st t tm ms cb) = true ->
  ty_of x = t -> index_of x ms = Some i -> nth_error ms i = Some (m, c) -> object_like c = true ->
  reads g yerr c a' M' b' bufs' (JObj rest) -> past a' = past a ->
  match doc g yerr P M' b' bufs' a' with
  | Failed l e => doc g yerr P M b bufs a = Failed l e
  | Parsed l w =>
      doc g yerr P M b bufs a =
        expected (end_union P st cb i m w (map (fun mp => fresh (snd mp)) ms) l) /\
      (st = false -> cb = None -> v_set w || m_opt m = true ->
         doc g yerr P M b bufs a =
         Parsed l (View true false None i (set_nth i w (map (fun mp => fresh (snd mp)) ms)))) /\
      (st = false -> v_set w || m_opt m = false ->
         doc g yerr P M b bufs a = Failed l (c_str ("Mandatory member #" ++ n2s i ++ " is not present"))) /\
      (forall v, st = true -> cb = None ->
         (if v_set w then v_val w = Some v else m_opt m = true /\ m_def m = Some v) ->
         match p_store P v with
         | None => exists kids, doc g yerr P M b bufs a = Parsed l (View true false (Some (VVar i v)) i kids)
         | Some e => doc g yerr P M b bufs a = Failed l (c_str ("Can not set value: " ++
                       match e with XStd m => c_str m | XOther => "unknown exception" end))
         end) /\
      (st = true -> v_set w = false -> m_def m = None ->
         doc g yerr P M b bufs a = Failed l (c_str ("Can not set value: " ++
           c_str (if m_opt m then "Optional member #" ++ n2s i ++ " does not have a default value"
                  else "Mandatory member #" ++ n2s i ++ " is not present"))))
  | Broken => False
  end.
Proof.
  intros tk g yerr P st t tm ms cb a a' M b bufs M' b' bufs' x rest i m c Htm Hr Hs Ht Hi Hn Ho Hr' Hp.
  assert (Hneb : String.eqb tm "" = false) by (apply String.eqb_neq; auto).
  assert (Hs' : supported (JObj rest) c = true).
  { cbn [supported] in Hs. rewrite Hneb, sup_body_cons in Hs. cbn zeta in Hs. rewrite Hneb, String.eqb_refl in Hs.
    unfold sup_select in Hs. replace (vtype_eqb (ty_of x) t) with true in Hs by (symmetry; apply vtype_eqb_eq; auto).
    rewrite Hi, Hn in Hs. destruct c; try discriminate; auto. cbn [supported]. destruct (String.eqb tm0 ""); auto. }
  rewrite (doc_expected P Hr' Hs'), (doc_expected P Hr Hs), Hp.
  assert (Hden : den P (JObj ((tm, JSc x) :: rest)) (SUni st t tm ms cb) (past a) =
     andthen (den P (JObj rest) c (past a))
             (fun w l => end_union P st cb i m w (map (fun mp => fresh (snd mp)) ms) l)).
  { rewrite den_uni, Hneb, body_cons. cbn zeta. rewrite Hneb, String.eqb_refl.
    rewrite (@select_member P _ st t ms cb x (past a) i m c Ht Hi Hn), object_like_den; auto. }
  rewrite Hden. destruct (den P (JObj rest) c (past a)) as [l [e|w]]; cbn [andthen expected]; auto.
  split; [reflexivity|]. split; [|split; [|split]].
  - intros -> -> Hw. unfold end_union. rewrite Hw. reflexivity.
  - intros -> Hw. unfold end_union. rewrite Hw. reflexivity.
  - intros v -> -> Hv. unfold end_union, member_value, storing.
    destruct (v_set w); [rewrite Hv|destruct Hv as [-> ->]]; (destruct (p_store P v) as [e|]; [destruct e|]; cbn; eauto).
  - intros -> Hw Hd. unfold end_union, member_value. rewrite Hw, Hd. destruct (m_opt m); reflexivity.
Qed.

(** Unknown type, type of another type, another first key: errors. *)
Lemma c17_union_errors : forall (tk : tokenizer) g yerr P st t tm ms cb (a : api tk) M b bufs k v rest,
  tm <> "" -> reads g yerr (SUni st t tm ms cb) a M b bufs (JObj ((k, v) :: rest)) ->
  (k <> tm -> doc g yerr P M b bufs a = Failed (past a) (c_str ("Unexpected member " ++ k))) /\
  (k = tm -> forall x, v = JSc x -> ty_of x <> t ->
     doc g yerr P M b bufs a = Failed (past a) (c_str ("Unexpected token " ++ tok_kind (TSc x)))) /\
  (k = tm -> forall x, v = JSc x -> ty_of x = t ->
     (forall mp, In mp ms -> ~ same_name (m_name (fst mp)) x) ->
     doc g yerr P M b bufs a = Failed (past a) (c_str ("Unexpected member " ++ fmt_scalar (p_fmt P) x))) /\
  (k = tm -> forall js, v = JArr js -> doc g yerr P M b bufs a = Failed (past a) "Unexpected token array start").
Proof.
  intros tk g yerr P st t tm ms cb a M b bufs k v rest Htm Hr.
  assert (Hneb : String.eqb tm "" = false) by (apply String.eqb_neq; auto).
  repeat match goal with |- _ /\ _ => split end.
  - intros Hk. apply String.eqb_neq in Hk. rewrite (doc_expected P Hr).
    + rewrite den_uni, Hneb, body_cons. cbn zeta. rewrite Hneb, Hk. reflexivity.
    + cbn [supported]. rewrite Hneb, sup_body_cons. cbn zeta. rewrite Hneb, Hk. auto.
  - intros -> x -> Hty. assert (Hv : vtype_eqb (ty_of x) t = false).
    { destruct (vtype_eqb (ty_of x) t) eqn:Q; auto. apply vtype_eqb_eq in Q. congruence. }
    rewrite (doc_expected P Hr).
    + rewrite den_uni, Hneb, body_cons. cbn zeta. rewrite Hneb, String.eqb_refl. unfold select. rewrite Hv. reflexivity.
    + cbn [supported]. rewrite Hneb, sup_body_cons. cbn zeta. rewrite Hneb, String.eqb_refl.
      unfold sup_select. rewrite Hv. auto.
  - intros -> x -> Hty Hno. assert (Hv : vtype_eqb (ty_of x) t = true) by (apply vtype_eqb_eq; auto).
    assert (Hi : index_of x ms = None).
    { clear -Hno. induction ms as [|[m c] ms IH]; auto. pose proof (Hno (m, c) (or_introl eq_refl)) as Q. apply same_name_not in Q. simpl in *. rewrite Q.
      rewrite IH; auto. }
    rewrite (doc_expected P Hr).
    + rewrite den_uni, Hneb, body_cons. cbn zeta. rewrite Hneb, String.eqb_refl. unfold select. rewrite Hv, Hi. reflexivity.
    + cbn [supported]. rewrite Hneb, sup_body_cons. cbn zeta. rewrite Hneb, String.eqb_refl.
      unfold sup_select. rewrite Hv, Hi. auto.
  - intros -> js ->. rewrite (doc_expected P Hr).
    + rewrite den_uni, Hneb, body_cons. cbn zeta. rewrite Hneb, String.eqb_refl. reflexivity.
    + cbn [supported]. rewrite Hneb, sup_body_cons. cbn zeta. rewrite Hneb, String.eqb_refl. auto.
Qed.

(** ** C18 *)

(** Members [ps1], then the type of an embedded union, then the rest: [ps1] is
    parsed by the object, the rest by the selected member, and the end of the
    document ends the selected member, the union and the object, in this order. *)
Lemma c18_embedded_union : forall (tk : tokenizer) g yerr P k ms ign cb (a : api tk) M b bufs ps1 key x rest st t ums ucb i j m c,
  reads g yerr (SObj k ms ign cb) a M b bufs (JObj (ps1 ++ (key, JSc x) :: rest)) ->
  supported (JObj (ps1 ++ (key, JSc x) :: rest)) (SObj k ms ign cb) = true ->
  own ms ps1 -> index_of (SStr key) ms = Some i ->
  option_map snd (nth_error ms i) = Some (SUni st t "" ums ucb) ->
  ty_of x = t -> index_of x ums = Some j -> nth_error ums j = Some (m, c) -> object_like c = true ->
  (forall l1 kids l2 w l3 u,
     members P ms ign ps1 (map (fun mp => fresh (snd mp)) ms) (past a) = (l1, inr kids) ->
     den P (JObj rest) c l1 = (l2, inr w) ->
     end_union P st ucb j m w (map (fun mp => fresh (snd mp)) ums) l2 = (l3, inr u) ->
     doc g yerr P M b bufs a = expected (end_object P k ms cb false (set_nth i u kids) l3)) /\
  (forall l w, doc g yerr P M b bufs a = Parsed l w ->
     exists evs, l = (past a ++ evs)%list /\
       map ev_id evs = (members_ids ms ps1 ++ ids (JObj rest) c ++ opt_id ucb ++ opt_id cb)%list).
Proof.
  intros tk g yerr P k ms ign cb a M b bufs ps1 key x rest st t ums ucb i j m c Hr Hs Ho Hi Hn Ht Hj Hm Hc.
  rewrite (doc_expected P Hr Hs). split.
  - intros l1 kids l2 w l3 u H1 H2 H3.
    rewrite (@embedded_rest P k ms ign cb ps1 key x rest (past a) st t ums ucb i Ho Hi Hn), H1. cbn [andthen].
    rewrite (@select_member P _ st t ums ucb x l1 j m c Ht Hj Hm).
    rewrite <- (@object_like_den P c rest l1 Hc), H2. cbn [andthen]. rewrite H3. reflexivity.
  - intros l w H. pose proof (callback_order P (JObj (ps1 ++ (key, JSc x) :: rest)) (SObj k ms ign cb) (past a)) as (evs & He & Hv).
    rewrite (@embedded_ids k ms ign cb ps1 key x rest st t ums ucb i j m c Ho Hi Hn Hj Hm Hc) in Hv.
    destruct (den P (JObj (ps1 ++ (key, JSc x) :: rest)) (SObj k ms ign cb) (past a)) as [l' [e|w']]; [discriminate|].
    simpl in *. inversion H; subst. eauto.
Qed.

(** ** C19 *)
Lemma c19_accepted_matches : forall (tk : tokenizer) g yerr P s (a : api tk) M b bufs j l w,
  reads g yerr s a M b bufs j -> supported j s = true ->
  doc g yerr P M b bufs a = Parsed l w -> verdict j s <> None.
Proof.
  intros tk g yerr P s a M b bufs j l w Hr Hs H. rewrite (doc_expected P Hr Hs) in H.
  destruct (den P j s (past a)) as [l' [e|w']] eqn:Q; [discriminate|].
  destruct (@verdict_sound P j s (past a) _ _ Q) as (x & -> & _). discriminate.
Qed.

Lemma c19_accepted_iff_matches : forall (tk : tokenizer) g yerr P s (a : api tk) M b bufs j,
  agreeable P -> reads g yerr s a M b bufs j -> supported j s = true ->
  ((exists l w, doc g yerr P M b bufs a = Parsed l w) <-> verdict j s <> None).
Proof.
  intros tk g yerr P s a M b bufs j HP Hr Hs. rewrite (doc_expected P Hr Hs), <- (accepts_iff j s (past a) HP).
  split; intros (l & w & H).
  - destruct (den P j s (past a)) as [l' [e|w']]; [discriminate|]. eauto.
  - rewrite H. simpl. eauto.
Qed.

Lemma c19_unsupported_refuted :
  exists s text j, tokenize toy (toy_text text) = (toks j, Some None) /\ verdict j s = None /\
    exists w, result (docs yes text (new s)) = Parsed [Ev 3 (OVal (VSc (SInt 2))); Ev 3 (OVal (VSc (SInt 1)))] w.
Proof.
  exists r_o, "{O{U1X2}W{T{T1X1}}}", b4_doc. split; [reflexivity|]. split; [reflexivity|].
  eexists. vm_compute. reflexivity.
Qed.

(** ** C20 *)

(** A null in place of the type of an embedded union (or of any other member):
    as if it were absent. *)
Lemma c20_null_member_absent : forall (tk : tokenizer) g yerr P k ms ign cb (a : api tk) M b bufs M' b' bufs' ps1 key ps2,
  reads g yerr (SObj k ms ign cb) a M b bufs (JObj (ps1 ++ (key, JNull) :: ps2)) ->
  supported (JObj (ps1 ++ (key, JNull) :: ps2)) (SObj k ms ign cb) = true ->
  reads g yerr (SObj k ms ign cb) a M' b' bufs' (JObj (ps1 ++ ps2)) ->
  own ms ps1 -> declared ms key <> None -> ~ In key (map fst ps1) -> (ps1 ++ ps2)%list <> [] ->
  doc g yerr P M b bufs a = doc g yerr P M' b' bufs' a.
Proof.
  intros tk g yerr P k ms ign cb a M b bufs M' b' bufs' ps1 key ps2 H1 Hs H2 Ho Hd Hni Hne.
  rewrite (doc_expected P H1 Hs), (doc_expected P H2).
  - rewrite null_is_absent; auto.
  - eapply sup_drop; eauto. destruct (declared ms key) as [c|]; [|congruence]. destruct c; auto.
Qed.

Lemma c20_standalone_null_type_refuted :
  exists s, s = SObj OPlain [(mkM (SStr "U") true None, ux);
                             (mkM (SStr "X") true None, SVal TyInt (Some 9))] false None /\
    (* member X of the union's own object reaches the enclosing object's member X *)
    (exists w, result (docs yes "{U{T1X5}}" (new s)) = Parsed [Ev 3 (OVal (VSc (SInt 5)))] w) /\
    (exists m, result (docs yes "{U{T~X5}}" (new s)) = Failed [Ev 9 (OVal (VSc (SInt 5)))] m).
Proof.
  eexists. split; [reflexivity|]. split; eexists; vm_compute; reflexivity.
Qed.
