(** Property theorems, part 1 (C01-C10), with their proofs.  Properties.v restates
    them; examples that their hypotheses are met are in Examples.v. *)

From Verif Require Import Spec Model Infra Total Safe Refine Main Api ApiProofs History ApiFacts
  Outcome DenFacts Closed Accept Complete Order Calls Members Free Round Blank Access Findings.
From Coq Require Import Permutation.
Local Open Scope string_scope.
Set Implicit Arguments.

(** ** C01 *)

(** For every state, token and callbacks there is one result, an actual one, that
    the recursion reaches however much recursion depth is granted beyond a bound
    linear in the stack depth and the height of the declaration. *)
Lemma c01_token_terminates : forall (E : env) (g : nat) (t : token) (s : mstate),
  exists r, r <> RFuel /\
    forall depth, 5 * List.length (m_stack s) + 6 * height (m_root s) + 7 <= depth ->
                  exec E g depth (CDisp t) s = r.
Proof.
  intros E g t s. exists (dispatch E g t s). split; [apply dispatch_total|].
  intros d Hd. unfold dispatch. apply exec_mono; [exact Hd|]. apply dispatch_total.
Qed.

(** The same for whole parse() and finish() calls, from any state. *)
Lemma c01_calls_terminate : forall (tk : tokenizer) (E : env) (g : nat) (yerr : list ascii -> string)
    (o : op) (a : api tk),
  do_op E g yerr o a <> AFuel tk.
Proof.
  assert (Hthrow : forall tk yerr M (a : api tk), throw_parsing_error yerr M a <> AFuel tk).
  { intros tk yerr M a. unfold throw_parsing_error. destruct (a_data a) as [[b [|n]]|]; try discriminate.
    destruct (M b); [|discriminate]. destruct (Nat.leb _ _); discriminate. }
  intros tk E g yerr o a. destruct o as [M b|M]; simpl.
  - unfold parse. destruct (M b) as [bs|]; [|discriminate].
    set (q := do_reset _). destruct (a_h q) as [st|] eqn:Hh.
    + rewrite (feed_run E g bs q Hh). unfold ApiProofs.after.
      destruct (run E g _ _) as [m|e m|u|] eqn:R; simpl; try discriminate; try apply Hthrow.
      * destruct (snd _); simpl; [discriminate|apply Hthrow].
      * exfalso. eapply run_total; eauto.
    + destruct bs; simpl; rewrite Hh; simpl; apply Hthrow.
  - unfold Api.finish. destruct (a_h (with_reset a true)) as [st|] eqn:Hh.
    + rewrite (complete_run E g _ Hh). unfold ApiProofs.after.
      destruct (run E g _ _) as [m|e m|u|] eqn:R; simpl; try discriminate; try apply Hthrow.
      * destruct (snd _); simpl; [destruct (empty_stack m); discriminate|apply Hthrow].
      * exfalso. eapply run_total; eauto.
    + unfold complete. rewrite Hh. simpl. apply Hthrow.
Qed.

(** ** C02 *)

(** From a new Parser over a new parser object, whatever is parsed, however often
    parsing fails and whatever callbacks do: no dispatcher pointer that is null or
    dangling is used (and no std::terminate). *)
Lemma c02_no_bad_dispatcher : forall (tk : tokenizer) (E : env) (g : nat) (yerr : list ascii -> string)
    (s : schema) (l : list event) (os : list op) (u : ub),
  no_arr_uni s = true ->
  do_ops E g yerr os (start tk g (mk s) l) <> AUB tk (UBDisp u).
Proof.
  intros tk E g yerr s l os u Hs H.
  pose proof (@ops_safe tk E g yerr s os Hs (start tk g (mk s) l) (m_ok_new tk g s l)) as X.
  rewrite H in X. discriminate.
Qed.

(** With a Union as the element of an Array it is false. *)
Lemma c02_array_of_union_refuted :
  exists (s : schema) (text : string),
    document (lift yes) 0 ye (mem_of [text]) [0] (start toy 0 (mk s) []) = AUB toy (UBDisp NullDispatcher).
Proof. eexists. exists "[1". exact b5_null_dispatcher. Qed.

(** ** C03 *)

(** After any history, a supported document in any number of buffers has exactly
    the outcome of the specification. *)
Lemma c03_document_outcome : forall (tk : tokenizer) g yerr P s (a : api tk) M b bufs j,
  reads g yerr s a M b bufs j -> supported j s = true ->
  doc g yerr P M b bufs a = expected (den P j s (past a)).
Proof. intros; eapply doc_expected; eauto. Qed.

(** If it is accepted, the dispatcher's stack is empty afterwards. *)
Lemma c03_stack_empty : forall (tk : tokenizer) E g yerr (a a' : api tk) M bufs,
  document E g yerr M bufs a = AOk a' -> m_stack (a_m a') = [].
Proof.
  intros tk E g yerr a a' M bufs H. unfold document in H.
  destruct (parse_all E g yerr M bufs a) as [q|x q| |u|]; try discriminate.
  assert (X : exists q', Api.finish E g yerr M q = AOk q') by eauto.
  unfold Api.finish in H. destruct (complete E g (with_reset q true)) as [c|c| |u|]; simpl in H; try discriminate.
  - destruct (empty_stack (a_m c)) eqn:Es; inversion H; subst. apply empty_stack_iff; auto.
  - exfalso. eapply throw_not_ok; eauto.
Qed.

(** ** C04 *)
Lemma c04_round_trip : forall (tk : tokenizer) g yerr P s (a : api tk) M b bufs v,
  own_types_stored P -> storable s -> has s v -> reads g yerr s a M b bufs (to_json s v) ->
  exists w, doc g yerr P M b bufs a = Parsed (past a) w /\ v_set w = true /\ v_val w = Some v.
Proof.
  intros tk g yerr P s a M b bufs v HS Hs Hv Hr.
  destruct (round HS v Hs Hv) as (Hsup & Hg & w & Hw & Hset).
  exists w. split; [|split; auto].
  - rewrite (doc_expected P Hr Hsup). rewrite (@den_meaning P _ s); [|apply storable_nocb; auto].
    rewrite Hw. reflexivity.
  - destruct Hg as (w' & Hw' & Hval). rewrite Hw in Hw'. inversion Hw'; subst; auto.
Qed.

(** The end of an entity with the finish callback [cb] (if any), invocations [log] so
    far: the callback gets [o] and decides; [w x]: what the parser shows afterwards, if
    the callback did [x]. *)
Definition finishing (P : prog) (cb : option cbid) (o : obs) (log : list event) (w : cbact -> view)
  : outcome :=
  match cb with
  | None => Parsed log (w nothing)
  | Some c =>
      let x := p_cb P c log o in
      let log' := (log ++ [Ev c o])%list in
      match a_res x with
      | CTrue => Parsed log' (w x)
      | CFalse => Failed log' "Callback returned false"
      | CThrow m => Failed log' (c_str m)
      | CThrowOther => Failed log' "Unknown exception"
      end
  end.

Lemma expected_invoke P cb o l w :
  expected (invoke P cb o msg_cb_false l (fun x l => (l, inr (w x)))) = finishing P cb o l w.
Proof.
  destruct cb as [c|]; [|reflexivity]. unfold finishing. cbn [invoke].
  destruct (a_res (p_cb P c l o)); reflexivity.
Qed.

(** ** C05 *)
Lemma c05_value_document : forall (tk : tokenizer) g yerr P t (a : api tk) M b bufs j,
  reads g yerr (SVal t None) a M b bufs j ->
  doc g yerr P M b bufs a =
  match j with
  | JNull => Parsed (past a) (View false true None 0 [])
  | JSc x =>
      if vtype_eqb (ty_of x) t
      then Parsed (past a) (View true false (Some (VSc x)) 0 [])
      else Failed (past a) ("Unexpected token " ++ tok_kind (TSc x))
  | JArr _ => Failed (past a) "Unexpected token array start"
  | JObj _ => Failed (past a) "Unexpected token map start"
  end.
Proof.
  intros tk g yerr P t a M b bufs j Hr.
  rewrite (doc_expected P Hr); [|destruct j; auto].
  destruct j as [|x|js|ps]; simpl; auto.
  destruct (vtype_eqb (ty_of x) t); simpl; auto. destruct x as [[]| | |]; auto.
Qed.

(** With a callback: it is called once, with the value, and decides. *)
Lemma c05_value_callback : forall (tk : tokenizer) g yerr P t c (a : api tk) M b bufs x,
  reads g yerr (SVal t (Some c)) a M b bufs (JSc x) -> ty_of x = t ->
  let log := (past a ++ [Ev c (OVal (VSc x))])%list in
  doc g yerr P M b bufs a =
  match a_res (p_cb P c (past a) (OVal (VSc x))) with
  | CTrue => Parsed log (View true false (Some (VSc x)) 0 [])
  | CFalse => Failed log "Callback returned false"
  | CThrow m => Failed log (c_str m)
  | CThrowOther => Failed log "Unknown exception"
  end.
Proof.
  intros tk g yerr P t c a M b bufs x Hr Ht log.
  rewrite (doc_expected P Hr); [|auto]. cbn [den]. rewrite Ht.
  replace (vtype_eqb t t) with true by (symmetry; apply vtype_eqb_eq; auto).
  unfold end_value, invoke. destruct (a_res _); auto.
Qed.

(** ** C06 *)

(** [yields P e j v]: declaration [e] alone accepts [j], get() returns [v], and storing
    [v] does not throw;
    [events P e j]: the callbacks invoked meanwhile.  [heedless]: the callbacks of the
    elements may do anything that depends on their argument only. *)
Lemma c06_array_elements : forall (tk : tokenizer) g yerr P e cb (a : api tk) M b bufs js,
  reads g yerr (SArr true e cb) a M b bufs (JArr js) ->
  supported (JArr js) (SArr true e cb) = true -> heedless P e ->
  (forall vs, Forall2 (yields P e) (non_null js) vs ->
     doc g yerr P M b bufs a =
     finishing P cb (OVal (VVec vs)) (past a ++ flat_map (events P e) (non_null js))
       (fun _ => View true (match non_null js with [] => true | _ => false end) (Some (VVec vs)) 0 [])) /\
  (forall l w, doc g yerr P M b bufs a = Parsed l w ->
     exists vs, Forall2 (yields P e) (non_null js) vs).
Proof.
  intros tk g yerr P e cb a M b bufs js Hr Hs He. rewrite (doc_expected P Hr Hs).
  change (den P (JArr js) (SArr true e cb) (past a)) with (elems P (den P) true e cb js true [] (past a)).
  split.
  - intros vs Hvs. rewrite (elems_free cb js He true [] (past a) Hvs). unfold end_array. apply expected_invoke.
  - intros l w H. destruct (elems P (den P) true e cb js true [] (past a)) as [l' [x|w']] eqn:Q;
      [discriminate|]. eapply elems_free_inv; eauto.
Qed.

(** Array (not storing): each element is offered to the callbacks of its declaration, in
    order; then the array's own callback. *)
Lemma c06_array_not_storing : forall (tk : tokenizer) g yerr P e cb (a : api tk) M b bufs js,
  reads g yerr (SArr false e cb) a M b bufs (JArr js) ->
  supported (JArr js) (SArr false e cb) = true -> heedless P e ->
  let w := View true (match non_null js with [] => true | _ => false end) None 0 [] in
  (Forall (accepts P e) (non_null js) ->
     doc g yerr P M b bufs a =
     finishing P cb (OSelf w) (past a ++ flat_map (events P e) (non_null js)) (fun x => pops x w)) /\
  (forall l u, doc g yerr P M b bufs a = Parsed l u -> Forall (accepts P e) (non_null js)).
Proof.
  intros tk g yerr P e cb a M b bufs js Hr Hs He w. rewrite (doc_expected P Hr Hs).
  change (den P (JArr js) (SArr false e cb) (past a)) with (elems P (den P) false e cb js true [] (past a)).
  split.
  - intros Hall. rewrite (elems_plain cb js He true [] (past a) Hall). unfold end_array. cbn zeta.
    rewrite <- expected_invoke. reflexivity.
  - intros l u H. destruct (elems P (den P) false e cb js true [] (past a)) as [l' [x|w']] eqn:Q;
      [discriminate|]. eapply elems_plain_inv; eauto.
Qed.

(** ** C07 *)

(** In arrays of Value null elements are skipped: the document without them has the
    same outcome. *)
Lemma c07_null_skipped_value : forall (tk : tokenizer) g yerr P st t vcb cb (a : api tk) M b bufs M' b' bufs' js,
  reads g yerr (SArr st (SVal t vcb) cb) a M b bufs (JArr js) ->
  reads g yerr (SArr st (SVal t vcb) cb) a M' b' bufs' (JArr (non_null js)) ->
  doc g yerr P M b bufs a = doc g yerr P M' b' bufs' a.
Proof.
  assert (Hsup : forall st t vcb cb js, supported (JArr js) (SArr st (SVal t vcb) cb) = true).
  { intros. simpl. apply forallb_forall. intros j _. destruct j; auto. }
  intros tk g yerr P st t vcb cb a M b bufs M' b' bufs' js H1 H2.
  rewrite (doc_expected P H1), (doc_expected P H2); auto. f_equal.
  change (elems P (den P) st (SVal t vcb) cb js true [] (past a) =
          elems P (den P) st (SVal t vcb) cb (non_null js) true [] (past a)).
  generalize true, (@nil value), (past a). clear. induction js as [|j js IH]; intros em vals l; auto.
  destruct j; [apply IH|..]; cbn [non_null filter is_null negb]; rewrite !elems_cons by auto;
    fold (non_null js); unfold andthen; destruct (den P _ _ l) as [l2 [y|w]]; auto;
    destruct st; auto; destruct (v_val w) as [v|]; auto; destruct (storing P v); auto.
Qed.

(** In arrays of arrays it is false, and depends on the position and on earlier
    documents. *)
Lemma c07_null_skipped_refuted :
  exists (s : schema) (t1 t2 t3 : string),
    (exists w, result (docs yes t1 (new s)) = Parsed [] w) /\ t1 = "[~[1]]" /\
    (exists e, result (docs yes t2 (new s)) = Failed [] e) /\ t2 = "[[1]~]" /\
    (exists w, result (docs yes t3 (new s)) = Parsed [] w) /\
    (exists w, result (docs yes "[[1]]" (new s)) = Parsed [] w) /\
    (exists e, then_doc yes t3 (docs yes "[[1]]" (new s)) = Failed [] e) /\ t3 = "[~]".
Proof.
  exists arr_arr, "[~[1]]", "[[1]~]", "[~]". destruct b3_null_element as (H1 & H2 & H3 & H4).
  repeat match goal with |- _ /\ _ => split end; eauto; eexists; vm_compute; reflexivity.
Qed.

(** ** C08 *)
Lemma gives_null : forall P s v, ~ gives P s JNull v.
Proof.
  intros P s v (w & H & Hv). unfold meaning in H. simpl in H. inversion H; subst.
  destruct s; discriminate.
Qed.

Lemma c08_map_values : forall (tk : tokenizer) g yerr P e cb (a : api tk) M b bufs ps,
  reads g yerr (SMp true e None cb) a M b bufs (JObj ps) ->
  supported (JObj ps) (SMp true e None cb) = true -> heedless P e -> not_emb e = true ->
  (forall vs, Forall2 (yields P e) (map snd ps) vs ->
     exists m, keys_sorted m /\ (forall k, first_of k m = first_of k (combine (map fst ps) vs)) /\
       let w := View true (match ps with [] => true | _ => false end) (Some (VMap m)) 0 [] in
       doc g yerr P M b bufs a =
       finishing P cb (OSelf w) (past a ++ flat_map (events P e) (map snd ps)) (fun x => pops x w)) /\
  (forall l w, doc g yerr P M b bufs a = Parsed l w ->
     exists vs, Forall2 (yields P e) (map snd ps) vs).
Proof.
  intros tk g yerr P e cb a M b bufs ps Hr Hs He Hn. rewrite (doc_expected P Hr Hs).
  rewrite (@den_obj P ps (SMp true e None cb) (past a) I).
  split.
  - intros vs Hvs. exists (insert_all (combine (map fst ps) vs) []).
    assert (Hnil : keys_sorted (@nil (string * value))) by constructor.
    split; [apply insert_all_sorted; auto|]. split.
    + intros k. rewrite first_of_insert_all; auto.
    + rewrite (map_free cb ps He Hn true _ [] (past a) Hvs). unfold end_map. cbn zeta.
      rewrite <- expected_invoke. reflexivity.
  - intros l w H.
    destruct (Spec.body P (den P) ps (SMp true e None cb) true _ [] (past a)) as [l' [x|w']] eqn:Q;
      [discriminate|]. eapply map_free_inv; eauto.
Qed.

(** A null value makes the parse fail. *)
Lemma c08_map_null_fails : forall (tk : tokenizer) g yerr P e cb (a : api tk) M b bufs ps,
  reads g yerr (SMp true e None cb) a M b bufs (JObj ps) ->
  supported (JObj ps) (SMp true e None cb) = true -> heedless P e -> not_emb e = true ->
  In JNull (map snd ps) ->
  exists l m, doc g yerr P M b bufs a = Failed l m.
Proof.
  intros tk g yerr P e cb a M b bufs ps Hr Hs He Hn Hin.
  destruct (c08_map_values Hr Hs He Hn) as [_ H].
  rewrite (doc_expected P Hr Hs) in *.
  destruct (den P (JObj ps) (SMp true e None cb) (past a)) as [l [x|w]]; simpl in *; eauto.
  exfalso. destruct (H l w eq_refl) as (vs & HF). clear -Hin HF. revert vs HF.
  induction (map snd ps) as [|j js IH]; intros vs HF; [auto|]. inversion HF as [|? ? ? ? [Hg _] Hr]; subst.
  destruct Hin as [->|Hin]; [eapply gives_null; apply Hg|eauto].
Qed.

(** ** C09 *)

(** [elem_events P e c kv]: the invocations for one element of the map: those of the
    value's own declaration, then the element callback with the key and the view of the
    value's parser. *)
Lemma c09_map_callbacks : forall (tk : tokenizer) g yerr P st e c cb (a : api tk) M b bufs ps l w,
  reads g yerr (SMp st e (Some c) cb) a M b bufs (JObj ps) ->
  supported (JObj ps) (SMp st e (Some c) cb) = true -> heedless P e -> not_emb e = true ->
  doc g yerr P M b bufs a = Parsed l w ->
  exists last,
    l = (past a ++
         flat_map (fun kv => events P e (snd kv) ++ [Ev c (OElem (fst kv) (view_by P e (snd kv)))]) ps ++
         last)%list /\
    map ev_id last = opt_id cb.
Proof.
  intros tk g yerr P st e c cb a M b bufs ps l w Hr Hs He Hn H.
  rewrite (doc_expected P Hr Hs) in H. rewrite (@den_obj P ps (SMp st e (Some c) cb) (past a) I) in H.
  destruct (Spec.body P (den P) ps (SMp st e (Some c) cb) true _ [] (past a)) as [l' [x|w']] eqn:Q;
    [discriminate|]. inversion H; subst.
  destruct (@map_elem_free P st e c cb ps He Hn _ _ _ _ _ _ Q) as (m & _ & ->).
  eexists. split; [reflexivity|]. destruct cb; auto.
Qed.

(** ** C10 *)

(** [member_view P ps mp]: the view of member [mp] after the members [ps] (that of
    the last occurrence of its name); [pair_events P ms kv]: the callbacks invoked for
    the value of one member. *)
Lemma no_missing P ms ps :
  (forall mp, In mp ms -> m_opt (fst mp) = false -> v_set (member_view P ps mp) = true) ->
  missing ms (map (member_view P ps) ms) = None.
Proof.
  intros Hm. apply missing_none_spec; [rewrite map_length; auto|]. intros i m c w Hi Hw.
  rewrite nth_error_map, Hi in Hw. inversion Hw; subst.
  destruct (m_opt m) eqn:Q; [apply orb_true_r|].
  rewrite (Hm (m, c)); auto. eapply nth_error_In; eauto.
Qed.

Lemma c10_mandatory_ok : forall (tk : tokenizer) g yerr P ms ign cb (a : api tk) M b bufs ps,
  reads g yerr (SObj OPlain ms ign cb) a M b bufs (JObj ps) ->
  supported (JObj ps) (SObj OPlain ms ign cb) = true ->
  members_free P ms -> named ms -> ps <> [] -> Forall (pair_ok P ms ign) ps ->
  (forall mp, In mp ms -> m_opt (fst mp) = false -> v_set (member_view P ps mp) = true) ->
  let w := View true false None 0 (map (member_view P ps) ms) in
  doc g yerr P M b bufs a =
  finishing P cb (OSelf w) (past a ++ flat_map (pair_events P ms) ps) (fun x => pops x w).
Proof.
  intros tk g yerr P ms ign cb a M b bufs ps Hr Hs Hp Hn Hne Hok Hm w.
  rewrite (doc_expected P Hr Hs), (obj_free OPlain cb (past a) Hp Hn Hok).
  destruct ps as [|kv ps]; [congruence|].
  unfold end_object. rewrite (no_missing P _ _ Hm). apply expected_invoke.
Qed.

(** SCustomObject: the callback also gets the value, default constructed, and may assign
    it. *)
Lemma c10_mandatory_ok_custom : forall (tk : tokenizer) g yerr P ms ign cb (a : api tk) M b bufs ps,
  reads g yerr (SObj OCustom ms ign cb) a M b bufs (JObj ps) ->
  supported (JObj ps) (SObj OCustom ms ign cb) = true ->
  members_free P ms -> named ms -> ps <> [] -> Forall (pair_ok P ms ign) ps ->
  (forall mp, In mp ms -> m_opt (fst mp) = false -> v_set (member_view P ps mp) = true) ->
  let w v := View true false (Some (VCust v)) 0 (map (member_view P ps) ms) in
  doc g yerr P M b bufs a =
  finishing P cb (OCust (w None) (VCust None)) (past a ++ flat_map (pair_events P ms) ps)
            (fun x => pops x (w (a_new x))).
Proof.
  intros tk g yerr P ms ign cb a M b bufs ps Hr Hs Hp Hn Hne Hok Hm w.
  rewrite (doc_expected P Hr Hs), (obj_free OCustom cb (past a) Hp Hn Hok).
  destruct ps as [|kv ps]; [congruence|].
  unfold end_object. rewrite (no_missing P _ _ Hm). apply expected_invoke.
Qed.

Lemma c10_mandatory_missing : forall (tk : tokenizer) g yerr P k ms ign cb (a : api tk) M b bufs ps i m c n,
  k = OPlain \/ k = OCustom ->
  reads g yerr (SObj k ms ign cb) a M b bufs (JObj ps) ->
  supported (JObj ps) (SObj k ms ign cb) = true ->
  members_free P ms -> named ms -> ps <> [] -> Forall (pair_ok P ms ign) ps ->
  nth_error ms i = Some (m, c) -> m_opt m = false -> v_set (member_view P ps (m, c)) = false ->
  m_name m = SStr n ->
  (forall i' mp, i < i' -> nth_error ms i' = Some mp -> m_opt (fst mp) = false ->
     v_set (member_view P ps mp) = true) ->
  doc g yerr P M b bufs a =
  Failed (past a ++ flat_map (pair_events P ms) ps) (c_str ("Mandatory member " ++ n ++ " is not present")).
Proof.
  intros tk g yerr P k ms ign cb a M b bufs ps i m c n Hk Hr Hs Hp Hn Hne Hok Hi Ho Hv Hname Hlast.
  rewrite (doc_expected P Hr Hs), (obj_free k cb (past a) Hp Hn Hok).
  destruct ps as [|kv ps]; [congruence|].
  assert (Hmiss : missing ms (map (member_view P (kv :: ps)) ms) = Some (SStr n)).
  { apply missing_spec; [rewrite map_length; auto|].
    exists i, m, c, (member_view P (kv :: ps) (m, c)). rewrite nth_error_map, Hi.
    repeat match goal with |- _ /\ _ => split end; auto.
    intros i' m' c' w' Hlt Hi' Hw'. rewrite nth_error_map, Hi' in Hw'. inversion Hw'; subst.
    destruct (m_opt m') eqn:Q; [apply orb_true_r|]. rewrite (Hlast i' (m', c')); auto. }
  unfold end_object. destruct Hk as [->| ->]; rewrite Hmiss; reflexivity.
Qed.

(** The value a member of an SAutoObject gets: the parsed one, or else its default. *)
Definition member_gets (P : prog) (ps : list (string * json)) (mp : mspec * schema) (v : value) : Prop :=
  if v_set (member_view P ps mp) then v_val (member_view P ps mp) = Some v
  else m_opt (fst mp) = true /\ m_def (fst mp) = Some v.

(** SAutoObject: every member needs a value, or a default; the assignment of the value
    may throw. *)
Lemma c10_auto_object : forall (tk : tokenizer) g yerr P ms ign cb (a : api tk) M b bufs ps,
  reads g yerr (SObj OAuto ms ign cb) a M b bufs (JObj ps) ->
  supported (JObj ps) (SObj OAuto ms ign cb) = true ->
  members_free P ms -> named ms -> ps <> [] -> Forall (pair_ok P ms ign) ps ->
  (forall vs, List.length vs = List.length ms ->
     (forall i mp v, nth_error ms i = Some mp -> nth_error vs i = Some v ->
        member_gets P ps mp v /\ p_store P v = None) ->
     doc g yerr P M b bufs a =
     finishing P cb (OVal (VTup vs)) (past a ++ flat_map (pair_events P ms) ps)
       (fun _ => View true false (Some (VTup vs)) 0 (map popped (map (member_view P ps) ms)))) /\
  (forall i m c n, nth_error ms i = Some (m, c) -> m_name m = SStr n ->
     v_set (member_view P ps (m, c)) = false -> m_def m = None ->
     (forall i' mp, i < i' -> nth_error ms i' = Some mp ->
        exists v, member_gets P ps mp v /\ p_store P v = None) ->
     doc g yerr P M b bufs a =
     Failed (past a ++ flat_map (pair_events P ms) ps) (c_str ("Can not set value: " ++
       c_str (if m_opt m then "Optional member " ++ n ++ " does not have a default value"
              else "Mandatory member " ++ n ++ " is not present")))) /\
  (forall i mp v e, nth_error ms i = Some mp -> member_gets P ps mp v -> p_store P v = Some e ->
     (forall i' mp, i < i' -> nth_error ms i' = Some mp ->
        exists v, member_gets P ps mp v /\ p_store P v = None) ->
     doc g yerr P M b bufs a =
     Failed (past a ++ flat_map (pair_events P ms) ps) (c_str ("Can not set value: " ++
       match e with XStd m => c_str m | XOther => "unknown exception" end))).
Proof.
  intros tk g yerr P ms ign cb a M b bufs ps Hr Hs Hp Hn Hne Hok.
  rewrite (doc_expected P Hr Hs), (obj_free OAuto cb (past a) Hp Hn Hok).
  destruct ps as [|kv ps]; [congruence|]. unfold end_object.
  assert (Hlen : List.length (map (member_view P (kv :: ps)) ms) = List.length ms) by (rewrite map_length; auto).
  split.
  - intros vs Hl Hv. assert (Hmv : member_values P ms (map (member_view P (kv :: ps)) ms) = inr vs).
    { apply member_values_ok; auto. split; auto. intros i m c w v Hi Hw Hvi.
      rewrite nth_error_map, Hi in Hw. inversion Hw; subst. apply (Hv i (m, c) v); auto. }
    rewrite Hmv. apply expected_invoke.
  - assert (Hrest : forall i, (forall i' mp, i < i' -> nth_error ms i' = Some mp ->
        exists v, member_gets P (kv :: ps) mp v /\ p_store P v = None) ->
      forall i' m' c' w', i < i' -> nth_error ms i' = Some (m', c') ->
        nth_error (map (member_view P (kv :: ps)) ms) i' = Some w' ->
        exists v, member_value P m' w' (name_text P (m_name m')) = inr v).
    { intros i Hlast i' m' c' w' Hlt Hi' Hw'. rewrite nth_error_map, Hi' in Hw'. inversion Hw'; subst.
      destruct (Hlast i' (m', c') Hlt Hi') as (v & Hg & Hst). unfold member_gets in Hg. unfold member_value, storing.
      destruct (v_set (member_view P (kv :: ps) (m', c'))); [rewrite Hg, Hst; eauto|].
      cbn [fst] in Hg. destruct Hg as [-> ->]. rewrite Hst. eauto. }
    split.
    + intros i m c n Hi Hname Hset Hdef Hlast.
      assert (Hmv : member_values P ms (map (member_view P (kv :: ps)) ms) =
                    inl (XStd (if m_opt m then "Optional member " ++ n ++ " does not have a default value"
                         else "Mandatory member " ++ n ++ " is not present"))).
      { apply member_values_err; auto. exists i, m, c, (member_view P (kv :: ps) (m, c)).
        rewrite nth_error_map, Hi. repeat match goal with |- _ /\ _ => split end; auto; [|apply Hrest; auto].
        unfold member_value. rewrite Hset, Hdef, Hname. destruct (m_opt m); auto. }
      rewrite Hmv. reflexivity.
    + intros i [m c] v e Hi Hg Hst Hlast.
      assert (Hmv : member_values P ms (map (member_view P (kv :: ps)) ms) = inl e).
      { apply member_values_err; auto. exists i, m, c, (member_view P (kv :: ps) (m, c)).
        rewrite nth_error_map, Hi. repeat match goal with |- _ /\ _ => split end; auto; [|apply Hrest; auto].
        unfold member_gets in Hg. unfold member_value, storing.
        destruct (v_set (member_view P (kv :: ps) (m, c))); [rewrite Hg, Hst; auto|].
        cbn [fst] in Hg. destruct Hg as [-> ->]. rewrite Hst. auto. }
      rewrite Hmv. destruct e; reflexivity.
Qed.
