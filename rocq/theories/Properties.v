(** Generated by tools/gen_properties.py from Docs*.v: the property theorems, their
    statements only.  [Print Assumptions] after each theorem lists what it rests on. *)

From Verif Require Import Spec Model Infra Total Safe Refine Main Api ApiProofs History ApiFacts
  Outcome DenFacts Closed Accept Complete Order Calls Members Round Blank Access Findings
  Free Looks Move MoveState Unset Json Grammar Depth Arrays Typed Callbacks Observe ObserveApi StreamSpec StreamApi Alloc Kept Same Lock LockApi From Space Log Cut Errors Veil Newer Lighter Time StreamApi Readme Grown Grammar2 Shuffle
  Docs1 Docs10 Docs11 Docs12 Docs13 Docs14 Docs15 Docs16 Docs17 Docs18 Docs19 Docs2 Docs20 Docs21 Docs22 Docs23 Docs24 Docs25 Docs26 Docs27 Docs28 Docs29 Docs3 Docs30 Docs31 Docs4 Docs5 Docs6 Docs7 Docs8 Docs9.
From Coq Require Import Permutation.
Local Open Scope string_scope.

(* C01.  Concrete cases: Examples.v, ex_C01. *)
(** For every state, token and callbacks there is one result, an actual one, that
    the recursion reaches however much recursion depth is granted beyond a bound
    linear in the stack depth and the height of the declaration. *)
Theorem C01_token_terminates : forall (E : env) (g : nat) (t : token) (s : mstate),
  exists r, r <> RFuel /\
    forall depth, 5 * List.length (m_stack s) + 6 * height (m_root s) + 7 <= depth ->
                  exec E g depth (CDisp t) s = r.
Proof. exact (@c01_token_terminates). Qed.
Print Assumptions C01_token_terminates.

(** The same for whole parse() and finish() calls, from any state. *)
Theorem C01_calls_terminate : forall (tk : tokenizer) (E : env) (g : nat) (yerr : list ascii -> string)
    (o : op) (a : api tk),
  do_op E g yerr o a <> AFuel tk.
Proof. exact (@c01_calls_terminate). Qed.
Print Assumptions C01_calls_terminate.

(* C02.  Concrete cases: Examples.v, ex_C02. *)
(** From a new Parser over a new parser object, whatever is parsed, however often
    parsing fails and whatever callbacks do: no dispatcher pointer that is null or
    dangling is used (and no std::terminate). *)
Theorem C02_no_bad_dispatcher : forall (tk : tokenizer) (E : env) (g : nat) (yerr : list ascii -> string)
    (s : schema) (l : list event) (os : list op) (u : ub),
  no_arr_uni s = true ->
  do_ops E g yerr os (start tk g (mk s) l) <> AUB tk (UBDisp u).
Proof. exact (@c02_no_bad_dispatcher). Qed.
Print Assumptions C02_no_bad_dispatcher.

(** With a Union as the element of an Array it is false. *)
Theorem C02_array_of_union_refuted : exists (s : schema) (text : string),
    document (lift yes) 0 ye (mem_of [text]) [0] (start toy 0 (mk s) []) = AUB toy (UBDisp NullDispatcher).
Proof. exact (@c02_array_of_union_refuted). Qed.
Print Assumptions C02_array_of_union_refuted.

(* C03.  Concrete cases: Examples.v, ex_C03, ex_C03_run. *)
(** After any history, a supported document in any number of buffers has exactly
    the outcome of the specification. *)
Theorem C03_document_outcome : forall (tk : tokenizer) g yerr P s (a : api tk) M b bufs j,
  reads g yerr s a M b bufs j -> supported j s = true ->
  doc g yerr P M b bufs a = expected (den P j s (past a)).
Proof. exact (@c03_document_outcome). Qed.
Print Assumptions C03_document_outcome.

(** If it is accepted, the dispatcher's stack is empty afterwards. *)
Theorem C03_stack_empty : forall (tk : tokenizer) E g yerr (a a' : api tk) M bufs,
  document E g yerr M bufs a = AOk a' -> m_stack (a_m a') = [].
Proof. exact (@c03_stack_empty). Qed.
Print Assumptions C03_stack_empty.

(* C04.  Concrete cases: Examples.v, ex_C04_C36, ex_C04_watched, ex_C04_text. *)
Theorem C04_round_trip : forall (tk : tokenizer) g yerr P s (a : api tk) M b bufs v,
  own_types_stored P -> storable s -> has s v -> reads g yerr s a M b bufs (to_json s v) ->
  exists w, doc g yerr P M b bufs a = Parsed (past a) w /\ v_set w = true /\ v_val w = Some v.
Proof. exact (@c04_round_trip). Qed.
Print Assumptions C04_round_trip.

(* C05.  Concrete cases: Examples.v, ex_C05. *)
Theorem C05_value_document : forall (tk : tokenizer) g yerr P t (a : api tk) M b bufs j,
  reads g yerr (SVal t None) a M b bufs j ->
  doc g yerr P M b bufs a =
  match j with
  | JNull => Parsed (past a) (View false true None 0 [])
  | JSc x =>
      if vtype_eqb (ty_of x) t
      then Parsed (past a) (View true false (Some (VSc x)) 0 [])
      else Failed (past a) ("Unexpected token " ++ tok_kind (TSc x))
  | JArr _ => Failed (past a) "Unexpected token array start"
  | JObj _ => Failed (past a) "Unexpected token map start"
  end.
Proof. exact (@c05_value_document). Qed.
Print Assumptions C05_value_document.

(** With a callback: it is called once, with the value, and decides. *)
Theorem C05_value_callback : forall (tk : tokenizer) g yerr P t c (a : api tk) M b bufs x,
  reads g yerr (SVal t (Some c)) a M b bufs (JSc x) -> ty_of x = t ->
  let log := (past a ++ [Ev c (OVal (VSc x))])%list in
  doc g yerr P M b bufs a =
  match a_res (p_cb P c (past a) (OVal (VSc x))) with
  | CTrue => Parsed log (View true false (Some (VSc x)) 0 [])
  | CFalse => Failed log "Callback returned false"
  | CThrow m => Failed log (c_str m)
  | CThrowOther => Failed log "Unknown exception"
  end.
Proof. exact (@c05_value_callback). Qed.
Print Assumptions C05_value_callback.

(* C06.  Concrete cases: Examples.v, ex_C06, ex_C06_callbacks, ex_C06_not_storing. *)
(** [yields P e j v]: declaration [e] alone accepts [j], get() returns [v], and storing
    [v] does not throw;
    [events P e j]: the callbacks invoked meanwhile.  [heedless]: the callbacks of the
    elements may do anything that depends on their argument only. *)
Theorem C06_array_elements : forall (tk : tokenizer) g yerr P e cb (a : api tk) M b bufs js,
  reads g yerr (SArr true e cb) a M b bufs (JArr js) ->
  supported (JArr js) (SArr true e cb) = true -> heedless P e ->
  (forall vs, Forall2 (yields P e) (non_null js) vs ->
     doc g yerr P M b bufs a =
     finishing P cb (OVal (VVec vs)) (past a ++ flat_map (events P e) (non_null js))
       (fun _ => View true (match non_null js with [] => true | _ => false end) (Some (VVec vs)) 0 [])) /\
  (forall l w, doc g yerr P M b bufs a = Parsed l w ->
     exists vs, Forall2 (yields P e) (non_null js) vs).
Proof. exact (@c06_array_elements). Qed.
Print Assumptions C06_array_elements.

(** Array (not storing): each element is offered to the callbacks of its declaration, in
    order; then the array's own callback. *)
Theorem C06_array_not_storing : forall (tk : tokenizer) g yerr P e cb (a : api tk) M b bufs js,
  reads g yerr (SArr false e cb) a M b bufs (JArr js) ->
  supported (JArr js) (SArr false e cb) = true -> heedless P e ->
  let w := View true (match non_null js with [] => true | _ => false end) None 0 [] in
  (Forall (accepts P e) (non_null js) ->
     doc g yerr P M b bufs a =
     finishing P cb (OSelf w) (past a ++ flat_map (events P e) (non_null js)) (fun x => pops x w)) /\
  (forall l u, doc g yerr P M b bufs a = Parsed l u -> Forall (accepts P e) (non_null js)).
Proof. exact (@c06_array_not_storing). Qed.
Print Assumptions C06_array_not_storing.

(* C07.  Concrete cases: Examples.v, ex_C07. *)
(** In arrays of Value null elements are skipped: the document without them has the
    same outcome. *)
Theorem C07_null_skipped_value : forall (tk : tokenizer) g yerr P st t vcb cb (a : api tk) M b bufs M' b' bufs' js,
  reads g yerr (SArr st (SVal t vcb) cb) a M b bufs (JArr js) ->
  reads g yerr (SArr st (SVal t vcb) cb) a M' b' bufs' (JArr (non_null js)) ->
  doc g yerr P M b bufs a = doc g yerr P M' b' bufs' a.
Proof. exact (@c07_null_skipped_value). Qed.
Print Assumptions C07_null_skipped_value.

(** In arrays of arrays it is false, and depends on the position and on earlier
    documents. *)
Theorem C07_null_skipped_refuted : exists (s : schema) (t1 t2 t3 : string),
    (exists w, result (docs yes t1 (new s)) = Parsed [] w) /\ t1 = "[~[1]]" /\
    (exists e, result (docs yes t2 (new s)) = Failed [] e) /\ t2 = "[[1]~]" /\
    (exists w, result (docs yes t3 (new s)) = Parsed [] w) /\
    (exists w, result (docs yes "[[1]]" (new s)) = Parsed [] w) /\
    (exists e, then_doc yes t3 (docs yes "[[1]]" (new s)) = Failed [] e) /\ t3 = "[~]".
Proof. exact (@c07_null_skipped_refuted). Qed.
Print Assumptions C07_null_skipped_refuted.

(* C08.  Concrete cases: Examples.v, ex_C08, ex_C08_null. *)
Theorem C08_map_values : forall (tk : tokenizer) g yerr P e cb (a : api tk) M b bufs ps,
  reads g yerr (SMp true e None cb) a M b bufs (JObj ps) ->
  supported (JObj ps) (SMp true e None cb) = true -> heedless P e -> not_emb e = true ->
  (forall vs, Forall2 (yields P e) (map snd ps) vs ->
     exists m, keys_sorted m /\ (forall k, first_of k m = first_of k (combine (map fst ps) vs)) /\
       let w := View true (match ps with [] => true | _ => false end) (Some (VMap m)) 0 [] in
       doc g yerr P M b bufs a =
       finishing P cb (OSelf w) (past a ++ flat_map (events P e) (map snd ps)) (fun x => pops x w)) /\
  (forall l w, doc g yerr P M b bufs a = Parsed l w ->
     exists vs, Forall2 (yields P e) (map snd ps) vs).
Proof. exact (@c08_map_values). Qed.
Print Assumptions C08_map_values.

(** A null value makes the parse fail. *)
Theorem C08_map_null_fails : forall (tk : tokenizer) g yerr P e cb (a : api tk) M b bufs ps,
  reads g yerr (SMp true e None cb) a M b bufs (JObj ps) ->
  supported (JObj ps) (SMp true e None cb) = true -> heedless P e -> not_emb e = true ->
  In JNull (map snd ps) ->
  exists l m, doc g yerr P M b bufs a = Failed l m.
Proof. exact (@c08_map_null_fails). Qed.
Print Assumptions C08_map_null_fails.

(* C09.  Concrete cases: Examples.v, ex_C09, ex_C09_values. *)
(** [elem_events P e c kv]: the invocations for one element of the map: those of the
    value's own declaration, then the element callback with the key and the view of the
    value's parser. *)
Theorem C09_map_callbacks : forall (tk : tokenizer) g yerr P st e c cb (a : api tk) M b bufs ps l w,
  reads g yerr (SMp st e (Some c) cb) a M b bufs (JObj ps) ->
  supported (JObj ps) (SMp st e (Some c) cb) = true -> heedless P e -> not_emb e = true ->
  doc g yerr P M b bufs a = Parsed l w ->
  exists last,
    l = (past a ++
         flat_map (fun kv => events P e (snd kv) ++ [Ev c (OElem (fst kv) (view_by P e (snd kv)))]) ps ++
         last)%list /\
    map ev_id last = opt_id cb.
Proof. exact (@c09_map_callbacks). Qed.
Print Assumptions C09_map_callbacks.

(* C10.  Concrete cases: Examples.v, ex_C10_ok, ex_C10_callback, ex_C10_custom, ex_C10_missing, ex_C10_auto. *)
Theorem C10_mandatory_ok : forall (tk : tokenizer) g yerr P ms ign cb (a : api tk) M b bufs ps,
  reads g yerr (SObj OPlain ms ign cb) a M b bufs (JObj ps) ->
  supported (JObj ps) (SObj OPlain ms ign cb) = true ->
  members_free P ms -> named ms -> ps <> [] -> Forall (pair_ok P ms ign) ps ->
  (forall mp, In mp ms -> m_opt (fst mp) = false -> v_set (member_view P ps mp) = true) ->
  let w := View true false None 0 (map (member_view P ps) ms) in
  doc g yerr P M b bufs a =
  finishing P cb (OSelf w) (past a ++ flat_map (pair_events P ms) ps) (fun x => pops x w).
Proof. exact (@c10_mandatory_ok). Qed.
Print Assumptions C10_mandatory_ok.

(** SCustomObject: the callback also gets the value, default constructed, and may assign
    it. *)
Theorem C10_mandatory_ok_custom : forall (tk : tokenizer) g yerr P ms ign cb (a : api tk) M b bufs ps,
  reads g yerr (SObj OCustom ms ign cb) a M b bufs (JObj ps) ->
  supported (JObj ps) (SObj OCustom ms ign cb) = true ->
  members_free P ms -> named ms -> ps <> [] -> Forall (pair_ok P ms ign) ps ->
  (forall mp, In mp ms -> m_opt (fst mp) = false -> v_set (member_view P ps mp) = true) ->
  let w v := View true false (Some (VCust v)) 0 (map (member_view P ps) ms) in
  doc g yerr P M b bufs a =
  finishing P cb (OCust (w None) (VCust None)) (past a ++ flat_map (pair_events P ms) ps)
            (fun x => pops x (w (a_new x))).
Proof. exact (@c10_mandatory_ok_custom). Qed.
Print Assumptions C10_mandatory_ok_custom.

Theorem C10_mandatory_missing : forall (tk : tokenizer) g yerr P k ms ign cb (a : api tk) M b bufs ps i m c n,
  k = OPlain \/ k = OCustom ->
  reads g yerr (SObj k ms ign cb) a M b bufs (JObj ps) ->
  supported (JObj ps) (SObj k ms ign cb) = true ->
  members_free P ms -> named ms -> ps <> [] -> Forall (pair_ok P ms ign) ps ->
  nth_error ms i = Some (m, c) -> m_opt m = false -> v_set (member_view P ps (m, c)) = false ->
  m_name m = SStr n ->
  (forall i' mp, i < i' -> nth_error ms i' = Some mp -> m_opt (fst mp) = false ->
     v_set (member_view P ps mp) = true) ->
  doc g yerr P M b bufs a =
  Failed (past a ++ flat_map (pair_events P ms) ps) (c_str ("Mandatory member " ++ n ++ " is not present")).
Proof. exact (@c10_mandatory_missing). Qed.
Print Assumptions C10_mandatory_missing.

(** SAutoObject: every member needs a value, or a default; the assignment of the value
    may throw. *)
Theorem C10_auto_object : forall (tk : tokenizer) g yerr P ms ign cb (a : api tk) M b bufs ps,
  reads g yerr (SObj OAuto ms ign cb) a M b bufs (JObj ps) ->
  supported (JObj ps) (SObj OAuto ms ign cb) = true ->
  members_free P ms -> named ms -> ps <> [] -> Forall (pair_ok P ms ign) ps ->
  (forall vs, List.length vs = List.length ms ->
     (forall i mp v, nth_error ms i = Some mp -> nth_error vs i = Some v ->
        member_gets P ps mp v /\ p_store P v = None) ->
     doc g yerr P M b bufs a =
     finishing P cb (OVal (VTup vs)) (past a ++ flat_map (pair_events P ms) ps)
       (fun _ => View true false (Some (VTup vs)) 0 (map popped (map (member_view P ps) ms)))) /\
  (forall i m c n, nth_error ms i = Some (m, c) -> m_name m = SStr n ->
     v_set (member_view P ps (m, c)) = false -> m_def m = None ->
     (forall i' mp, i < i' -> nth_error ms i' = Some mp ->
        exists v, member_gets P ps mp v /\ p_store P v = None) ->
     doc g yerr P M b bufs a =
     Failed (past a ++ flat_map (pair_events P ms) ps) (c_str ("Can not set value: " ++
       c_str (if m_opt m then "Optional member " ++ n ++ " does not have a default value"
              else "Mandatory member " ++ n ++ " is not present")))) /\
  (forall i mp v e, nth_error ms i = Some mp -> member_gets P ps mp v -> p_store P v = Some e ->
     (forall i' mp, i < i' -> nth_error ms i' = Some mp ->
        exists v, member_gets P ps mp v /\ p_store P v = None) ->
     doc g yerr P M b bufs a =
     Failed (past a ++ flat_map (pair_events P ms) ps) (c_str ("Can not set value: " ++
       match e with XStd m => c_str m | XOther => "unknown exception" end))).
Proof. exact (@c10_auto_object). Qed.
Print Assumptions C10_auto_object.

(* C39.  Concrete cases: Examples.v, ex_C39. *)
(** Whatever the history: after setFinishCallback() or setElementCallback() ([w]) on the
    parser at [pi], the next document has the outcome it has for a new Parser over a new
    parser object whose declaration has the new callback [c] there ([None]: none). *)
Theorem C39_like_declared : forall (tk : tokenizer) g yerr P s (a : api tk) w pi c M b bufs bs j st,
  history g yerr s a -> at_start a ->
  content M (b :: bufs) = Some bs -> tokenize tk bs = (toks j, Some st) ->
  supported j (declare_at w pi c s) = true ->
  doc g yerr P M b bufs (user_set_callback w pi c a) =
  doc g yerr P M b bufs (start tk g (mk (declare_at w pi c s)) (past a)).
Proof. exact (@c39_like_declared). Qed.
Print Assumptions C39_like_declared.

(** ... that is, exactly what the declaration with the new callback says. *)
Theorem C39_declared_result : forall (tk : tokenizer) g yerr P s (a : api tk) w pi c M b bufs bs j st,
  history g yerr s a -> at_start a ->
  content M (b :: bufs) = Some bs -> tokenize tk bs = (toks j, Some st) ->
  supported j (declare_at w pi c s) = true ->
  doc g yerr P M b bufs (user_set_callback w pi c a) = expected (den P j (declare_at w pi c s) (past a)).
Proof. exact (@c39_declared_result). Qed.
Print Assumptions C39_declared_result.

(** The call itself invokes nothing and changes nothing that the API shows, of any
    parser of the declaration. *)
Theorem C39_nothing_else : forall (tk : tokenizer) (a : api tk) w pi c,
  past (user_set_callback w pi c a) = past a /\
  (forall rel, option_map view_of (get rel (m_root (a_m (user_set_callback w pi c a)))) =
               option_map view_of (get rel (m_root (a_m a)))).
Proof. exact (@c39_nothing_else). Qed.
Print Assumptions C39_nothing_else.

(* C40.  Concrete cases: Examples.v, ex_C40, ex_C40_replaced. *)
(** Two declarations that differ in onlookers only: every sequence of parse() and
    finish() calls, with any texts, gives the same results, the same exceptions, the
    same invocations of the other callbacks, the same values. *)
Theorem C40_same_replies : forall (X : cbid -> bool) (tk : tokenizer) (P : prog) g yerr s s' l os,
  only_look X P -> same_decl X s s' ->
  replies X (lift P) g yerr os (start tk g (mk s) l) = replies X (lift P) g yerr os (start tk g (mk s') l).
Proof. exact (@c40_same_replies). Qed.
Print Assumptions C40_same_replies.

(** Replacing one onlooker by another at any moment, also between the parse() calls of
    one document, in any state: the same. *)
Theorem C40_replaced_anytime : forall (X : cbid -> bool) (tk : tokenizer) (P : prog) g yerr (a : api tk) w pi c p os,
  only_look X P -> get pi (m_root (a_m a)) = Some p -> same_but X (callback_of w p) c ->
  replies X (lift P) g yerr os (user_set_callback w pi c a) = replies X (lift P) g yerr os a.
Proof. exact (@c40_replaced_anytime). Qed.
Print Assumptions C40_replaced_anytime.

(* C23.  Concrete cases: Examples.v, ex_C23. *)
(** finish(), after any calls of parse() and finish(), failed or not: with live buffers
    and no Union as array element it returns or throws ParsingError. *)
Theorem C23_finish_only_parsing_error : forall (tk : tokenizer) E g yerr s l (os : list op) (a : api tk) M,
  no_arr_uni s = true -> do_ops E g yerr os (start tk g (mk s) l) = AOk a ->
  (forall M0 b bytes, last_buffer os = Some (M0, b) -> M0 b = Some bytes ->
     exists now, M b = Some now /\ List.length bytes <= List.length now) ->
  match Api.finish E g yerr M a with
  | AOk _ | AThrow _ _ => True
  | _ => False
  end.
Proof. exact (@c23_finish_only_parsing_error). Qed.
Print Assumptions C23_finish_only_parsing_error.

(* C26.  Concrete cases: Examples.v, ex_C26, ex_C26_text. *)
(** finish() anywhere in any history, unless parse() or finish() failed before (then see
    C25): the error comes from the tokens the end of the text reports; or the underlying
    parser rejects the text as incomplete (own text empty); or a parser has not ended. *)
Theorem C26_finish_error : forall (tk : tokenizer) E g yerr (os : list op) p l M (a : api tk) st x a',
  do_ops E g yerr os (start tk g p l) = AOk a -> a_h a = HLive tk st ->
  Api.finish E g yerr M a = AThrow x a' ->
  exists ts y, tk_fin tk st = (ts, y) /\
    ((exists m, run E g ts (a_m a) = ROk m /\ y = None /\ a_m a' = m /\ pe_sj x = "") \/
     (exists m, run E g ts (a_m a) = ROk m /\ y <> None /\ m_stack m <> [] /\ a_m a' = m /\ pe_sj x = msg_stack_left) \/
     (exists e m, run E g ts (a_m a) = RThrow e m /\ a_m a' = m /\ pe_sj x = caught e)).
Proof. exact (@c26_finish_error). Qed.
Print Assumptions C26_finish_error.

(** The underlying parser's part of the error text is made from the bytes given to the
    failing parse() call; *)
Theorem C26_parse_text : forall (tk : tokenizer) E g yerr M b bs (a : api tk) x a',
  M b = Some bs -> parse E g yerr M b a = AThrow x a' -> pe_yajl x = yerr bs.
Proof. exact (@c26_parse_text). Qed.
Print Assumptions C26_parse_text.

(** for finish(), it is empty if a parser has not ended, and otherwise made from what is
    now in the buffer given to the last parse() call (as many bytes as were given). *)
Theorem C26_finish_text : forall (tk : tokenizer) E g yerr (os : list op) p l M (a : api tk) x a',
  do_ops E g yerr os (start tk g p l) = AOk a -> Api.finish E g yerr M a = AThrow x a' ->
  (pe_yajl x = "" /\ pe_sj x = msg_stack_left) \/
  (last_buffer os = None /\ pe_yajl x = yerr []) \/
  (exists M0 b bytes, last_buffer os = Some (M0, b) /\ M0 b = Some bytes /\
     (forall now, M b = Some now -> pe_yajl x = yerr (firstn (List.length bytes) now)) /\
     (M b = None -> bytes = [] /\ pe_yajl x = yerr [])).
Proof. exact (@c26_finish_text). Qed.
Print Assumptions C26_finish_text.

(* C16.  Concrete cases: Examples.v, ex_C16, ex_C16_callback. *)
(** pop() on the parser object at [pi] below the root: it becomes unset (and get() and
    pop() on it throw); all other parser objects of the declaration keep what isSet(),
    isEmpty() and get() say. *)
Theorem C16_pop_one : forall (tk : tokenizer) (a : api tk) pi q v,
  get pi (m_root (a_m a)) = Some q -> get_value q = Some v ->
  forall ro r, get ro (m_root (a_m a)) = Some r ->
  exists r', get ro (m_root (a_m (user_pop pi a))) = Some r' /\ is_empty r' = is_empty r /\
    (ro = pi -> is_set r' = false /\ get_value r' = None /\ pop_value r' = None) /\
    (ro <> pi -> is_set r' = is_set r /\ get_value r' = get_value r).
Proof. exact (@c16_pop_one). Qed.
Print Assumptions C16_pop_one.

(* C41.  Concrete cases: Examples.v, ex_C41, ex_C41_union, ex_C41_whole. *)
(** parse() of the beginning of a document, in any number of buffers, after any
    history: the callbacks that have run and what the parsers show are those of the
    beginning [q], as StreamSpec.v gives them. *)
Theorem C41_beginning_outcome : forall (tk : tokenizer) g yerr P s (a : api tk) M b bufs q,
  receives g yerr s a M b bufs (part_toks q) -> psupported q s = true ->
  fed g yerr P M b bufs a = expected (pden P q s (shows a) (past a)).
Proof. exact (@c41_beginning_outcome). Qed.
Print Assumptions C41_beginning_outcome.

(** This is every proper beginning of every supported document. *)
Theorem C41_every_beginning : forall (tk : tokenizer) g yerr P s (a : api tk) M b bufs j now later,
  supported j s = true -> toks j = (now ++ later)%list -> now <> [] -> later <> [] ->
  receives g yerr s a M b bufs now ->
  exists q, now = part_toks q /\ fed g yerr P M b bufs a = expected (pden P q s (shows a) (past a)).
Proof. exact (@c41_every_beginning). Qed.
Print Assumptions C41_every_beginning.

(** When the last byte of a document has been given to parse(), everything has happened:
    finish() is not needed for the callbacks and values. *)
Theorem C41_whole_text : forall (tk : tokenizer) g yerr P s (a : api tk) M b bufs j,
  receives g yerr s a M b bufs (toks j) -> supported j s = true ->
  fed g yerr P M b bufs a = expected (den P j s (past a)).
Proof. exact (@c41_whole_text). Qed.
Print Assumptions C41_whole_text.

(** Before the first token nothing happens. *)
Theorem C41_no_token : forall (tk : tokenizer) g yerr P s (a : api tk) M b bufs,
  receives g yerr s a M b bufs [] -> fed g yerr P M b bufs a = Parsed (past a) (shows a).
Proof. exact (@c41_no_token). Qed.
Print Assumptions C41_no_token.

(** The callbacks of the beginning are the first callbacks of the document; an error in
    the beginning is the document's error. *)
Theorem C41_first_callbacks : forall P j q later s w l,
  supported j s = true -> psupported q s = true -> toks j = (part_toks q ++ later)%list ->
  match pden P q s w l with
  | (l', inr _) => exists more, fst (den P j s l) = (l' ++ more)%list
  | (l', inl e) => den P j s l = (l', inl e)
  end.
Proof. exact (@c41_first_callbacks). Qed.
Print Assumptions C41_first_callbacks.

(** No later call takes an invocation back, whatever the program does. *)
Theorem C41_history_grows : forall (tk : tokenizer) E g yerr (o : op) (a a' : api tk),
  (do_op E g yerr o a = AOk a' \/ exists x, do_op E g yerr o a = AThrow x a') ->
  exists l, past a' = (past a ++ l)%list.
Proof. exact (@c41_history_grows). Qed.
Print Assumptions C41_history_grows.

(* C42.  Concrete cases: Examples.v, ex_C42, ex_C42_when. *)
(** parse() throws std::runtime_error exactly if the allocation fails and the call begins
    a new document: not for the first document of a Parser (its underlying parser was
    allocated by the constructor), and not in the middle of a document. *)
Theorem C42_when : forall (tk : tokenizer) E g yerr p l (os : list fop) x y ok M b bytes,
  f_new tk g true p l = Some x -> f_ops E g yerr os x = Some y -> M b = Some bytes ->
  let rs := freplies E g yerr os x in
  (exists t z, f_op E g yerr (FParse ok M b) y = FRuntime t z) <->
  ok = false /\ new_document false (served os rs) (ordinary rs) = true.
Proof. exact (@c42_when). Qed.
Print Assumptions C42_when.

(** It has the library's text; no callback was called and no parser object changed. *)
Theorem C42_nothing_changed : forall (tk : tokenizer) E g yerr o (x y : fapi tk) t,
  f_op E g yerr o x = FRuntime t y ->
  t = "Can not allocate YAJL handle" /\
  past (f_a y) = past (f_a x) /\ m_root (a_m (f_a y)) = m_root (a_m (f_a x)).
Proof. exact (@c42_nothing_changed). Qed.
Print Assumptions C42_nothing_changed.

(** Later calls behave as if the failed ones had not been made - the replies to the others
    are the replies to them alone - unless finish() is called directly after a failed one. *)
Theorem C42_no_trace : forall (tk : tokenizer) E g yerr p l (os : list fop) x,
  f_new tk g true p l = Some x ->
  (forall before M after, os = (before ++ FFinish M :: after)%list ->
     List.length (freplies E g yerr before x) = List.length before ->
     ~ exists t l' w rs, freplies E g yerr before x = (rs ++ [OutOfMemory t l' w])%list) ->
  let rs := freplies E g yerr os x in
  ordinary rs = replies (fun _ => false) E g yerr (served os rs) (start tk g p l).
Proof. exact (@c42_no_trace). Qed.
Print Assumptions C42_no_trace.

(** finish() directly after a failed call uses the underlying parser that is not there (the
    header says that the Parser must not be used after such an exception). *)
Theorem C42_finish_unusable : forall (tk : tokenizer) E g yerr ok M b (x y : fapi tk) t M',
  f_op E g yerr (FParse ok M b) x = FRuntime t y ->
  f_op E g yerr (FFinish M') y = @FUB tk FNullHandle.
Proof. exact (@c42_finish_unusable). Qed.
Print Assumptions C42_finish_unusable.

(** A callback [c] that pops the parser at [pi], which it knows by a captured reference,
    whenever it is called; the library handles a token, accepted or not, in whatever
    state; [c] is the last callback that it calls for it: then this parser is unset
    afterwards - nothing that the library does after the callback sets it again. *)
Theorem C16_callback_pop : forall E g (m m' : mstate) t pi d c evs o,
  standalone (schema_of (m_root m)) = true ->
  declared_at pi (schema_of (m_root m)) = Some d -> poppable d = true ->
  (forall l T a, In pi (co_away (e_cb E c l T a))) ->
  (dispatch E g t m = ROk m' \/ exists e, dispatch E g t m = RThrow e m') ->
  m_log m' = (m_log m ++ evs ++ [Ev c o])%list ->
  exists p, get pi (m_root m') = Some p /\ is_set p = false /\ get_value p = None /\ pop_value p = None.
Proof. exact (@c16_callback_pop). Qed.
Print Assumptions C16_callback_pop.

(* C43.  Concrete cases: Examples.v, ex_C43_array, ex_C43_map, ex_C43_auto, ex_C43_union, ex_C43_kept. *)
(** SArray: the elements before are parsed and stored, this one is parsed, its callbacks
    are invoked; the document then fails with the text of the exception, and no callback
    is invoked any more (neither of later elements nor of the array). *)
Theorem C43_array_throws : forall (tk : tokenizer) g yerr P e cb (a : api tk) M b bufs js1 j js2 vs v x,
  reads g yerr (SArr true e cb) a M b bufs (JArr (js1 ++ j :: js2)) ->
  supported (JArr (js1 ++ j :: js2)) (SArr true e cb) = true -> heedless P e ->
  Forall2 (yields P e) (non_null js1) vs -> j <> JNull -> gives P e j v -> p_store P v = Some x ->
  doc g yerr P M b bufs a =
  Failed (past a ++ flat_map (events P e) (non_null js1) ++ events P e j) (reported x).
Proof. exact (@c43_array_throws). Qed.
Print Assumptions C43_array_throws.

(** SMap: the same (also if the key was there before, and the value would be dropped). *)
Theorem C43_map_throws : forall (tk : tokenizer) g yerr P e cb (a : api tk) M b bufs ps1 k j ps2 vs v x,
  reads g yerr (SMp true e None cb) a M b bufs (JObj (ps1 ++ (k, j) :: ps2)) ->
  supported (JObj (ps1 ++ (k, j) :: ps2)) (SMp true e None cb) = true -> heedless P e -> not_emb e = true ->
  Forall2 (yields P e) (map snd ps1) vs -> gives P e j v -> p_store P v = Some x ->
  doc g yerr P M b bufs a =
  Failed (past a ++ flat_map (events P e) (map snd ps1) ++ events P e j) (reported x).
Proof. exact (@c43_map_throws). Qed.
Print Assumptions C43_map_throws.

(** SAutoObject: the members are assigned from the last to the first; the exception of the
    first assignment that throws is reported.  ([member_gets P ps mp v]: [v] is the value
    of the member in the document, or its default value.) *)
Theorem C43_auto_throws : forall (tk : tokenizer) g yerr P ms ign cb (a : api tk) M b bufs ps i mp v e,
  reads g yerr (SObj OAuto ms ign cb) a M b bufs (JObj ps) ->
  supported (JObj ps) (SObj OAuto ms ign cb) = true ->
  members_free P ms -> named ms -> ps <> [] -> Forall (pair_ok P ms ign) ps ->
  nth_error ms i = Some mp -> member_gets P ps mp v -> p_store P v = Some e ->
  (forall i' mp', i < i' -> nth_error ms i' = Some mp' ->
     exists v', member_gets P ps mp' v' /\ p_store P v' = None) ->
  doc g yerr P M b bufs a =
  Failed (past a ++ flat_map (pair_events P ms) ps) (c_str ("Can not set value: " ++
    match e with XStd m => c_str m | XOther => "unknown exception" end)).
Proof. exact (@c43_auto_throws). Qed.
Print Assumptions C43_auto_throws.

(** SUnion: the exception of the selected member's value (or of its default value, if the
    member is empty) is reported. *)
Theorem C43_union_throws : forall (tk : tokenizer) g yerr P t tm ms (a a' : api tk) M b bufs M' b' bufs' x rest i m c l w v e,
  tm <> "" -> reads g yerr (SUni true t tm ms None) a M b bufs (JObj ((tm, JSc x) :: rest)) ->
  supported (JObj ((tm, JSc x) :: rest)) (SUni true t tm ms None) = true ->
  ty_of x = t -> index_of x ms = Some i -> nth_error ms i = Some (m, c) -> object_like c = true ->
  reads g yerr c a' M' b' bufs' (JObj rest) -> past a' = past a ->
  doc g yerr P M' b' bufs' a' = Parsed l w ->
  (if v_set w then v_val w = Some v else m_opt m = true /\ m_def m = Some v) -> p_store P v = Some e ->
  doc g yerr P M b bufs a = Failed l (c_str ("Can not set value: " ++
    match e with XStd m => c_str m | XOther => "unknown exception" end)).
Proof. exact (@c43_union_throws). Qed.
Print Assumptions C43_union_throws.

(** After any use, failing or not: what get() returns, of any parser of the declaration,
    contains only values that may be stored; so do the values told to callbacks.  (The
    same holds of the default values in the declaration by hypothesis, [defaults_fine].) *)
Theorem C43_kept : forall (tk : tokenizer) yerr (ok : value -> Prop) s l g (a : api tk),
  defaults_fine ok s -> used_by yerr ok s l g a ->
  (forall pi p v, get pi (m_root (a_m a)) = Some p -> get_value p = Some v -> all_kept ok v) /\
  exists l', past a = (l ++ l')%list /\ (forall c v, In (Ev c (OVal v)) l' -> all_kept ok v).
Proof. exact (@c43_kept). Qed.
Print Assumptions C43_kept.

(* C44.  Concrete cases: Examples.v, ex_C44, ex_C44_run, ex_C44_untouched. *)
(** Whatever documents the parser has been used for before (see [history]): the next
    text, in any chunks, of any tokens (those of JSON or not, accepted by the parsers or
    not, complete or not), with any callbacks that see what the API shows, is replied to
    as by a new parser - the same callbacks with the same arguments; if it fails, the
    same ParsingError; and if its first token is one that may begin a value of the
    declaration, the same state of all parsers, down to isSet(), isEmpty() and get().
    Declarations: without Ignore and without unions as elements of arrays; nulls in the
    text only if the elements of all arrays are scalars.  [values_lead]: a value comes first
    and after every key. *)
Theorem C44_like_new : forall (tk : tokenizer) E g yerr flat s (a : api tk) M b bufs bs,
  same_eyes E -> regular flat s = true -> history g yerr s a -> at_start a ->
  content M (b :: bufs) = Some bs -> values_lead true (fst (tokenize tk bs)) ->
  (flat = true \/ ~ In TNull (fst (tokenize tk bs))) ->
  same_reply (exists t r, fst (tokenize tk bs) = t :: r /\ opener (kind_s s) t = true)
    (document E g yerr M (b :: bufs) a) (document E g yerr M (b :: bufs) (start tk g (mk s) (past a))).
Proof. exact (@c44_like_new). Qed.
Print Assumptions C44_like_new.

(** For JSON text: any bytes at all. *)
Theorem C44_like_new_json : forall E g yerr flat s (a : api json_tk) M b bufs bs,
  same_eyes E -> regular flat s = true -> history g yerr s a -> at_start a ->
  content M (b :: bufs) = Some bs ->
  (flat = true \/ ~ In TNull (fst (tokenize json_tk bs))) ->
  same_reply (exists t r, fst (tokenize json_tk bs) = t :: r /\ opener (kind_s s) t = true)
    (document E g yerr M (b :: bufs) a) (document E g yerr M (b :: bufs) (start json_tk g (mk s) (past a))).
Proof. exact (@c44_like_new_json). Qed.
Print Assumptions C44_like_new_json.

(** Two parsers of one declaration, each with a history of its own. *)
Theorem C44_two_histories : forall (tk : tokenizer) E g yerr flat s (a1 a2 : api tk) M b bufs bs,
  same_eyes E -> regular flat s = true ->
  history g yerr s a1 -> at_start a1 -> history g yerr s a2 -> at_start a2 -> past a1 = past a2 ->
  content M (b :: bufs) = Some bs -> values_lead true (fst (tokenize tk bs)) ->
  (flat = true \/ ~ In TNull (fst (tokenize tk bs))) ->
  same_reply (exists t r, fst (tokenize tk bs) = t :: r /\ opener (kind_s s) t = true)
    (document E g yerr M (b :: bufs) a1) (document E g yerr M (b :: bufs) a2).
Proof. exact (@c44_two_histories). Qed.
Print Assumptions C44_two_histories.

(** And if there is no such first token: the document fails, no callback is invoked and
    nothing about the parsers changes - in a used parser, values of the document before
    are still there. *)
Theorem C44_untouched : forall (tk : tokenizer) E g yerr flat s (a : api tk) M b bufs bs,
  regular flat s = true -> history g yerr s a -> at_start a ->
  content M (b :: bufs) = Some bs -> values_lead true (fst (tokenize tk bs)) ->
  ~ (exists t r, fst (tokenize tk bs) = t :: r /\ opener (kind_s s) t = true) ->
  exists x a', document E g yerr M (b :: bufs) a = AThrow x a' /\ past a' = past a /\ m_root (a_m a') = m_root (a_m a).
Proof. exact (@c44_untouched). Qed.
Print Assumptions C44_untouched.

(** The proviso about nulls is needed (the finding in C07): a new parser of arrays of
    arrays accepts "[null]", after the document "[[1]]" it is rejected. *)
Theorem C44_null_refuted : result (docs yes "[~]" (new arr_arr)) = Parsed [] (View true true (Some (VVec [])) 0 []) /\
  then_doc yes "[~]" (docs yes "[[1]]" (new arr_arr)) = Failed [] "Parsers stack is empty".
Proof. exact (@c44_null_refuted). Qed.
Print Assumptions C44_null_refuted.

(* C45.  Concrete cases: Examples.v, ex_C45, ex_C45_before, ex_C45_calls. *)
(** After any calls, whatever the texts, the chunks, the callbacks and the failures: every
    value get() returns, of any parser of the declaration, and everything callbacks were
    told since, is made of scalars that yajl reported in these calls, and the keys of
    every map in it are keys yajl reported.  (Default values of the declaration, if there
    are any, are to be counted in: [defaults_text].) *)
Theorem C45_made : forall (tk : tokenizer) yerr (SC : scalar -> Prop) (KY : string -> Prop) ts s l g (a : api tk),
  read_by yerr ts s l g a -> defaults_text SC KY s ->
  (forall x, In (TSc x) ts -> SC x) -> (forall k, In (TKey k) ts -> KY k) ->
  (forall pi p v, get pi (m_root (a_m a)) = Some p -> get_value p = Some v -> made SC KY v) /\
  exists l', past a = (l ++ l')%list /\ Forall (told_made SC KY) l'.
Proof. exact (@c45_made). Qed.
Print Assumptions C45_made.

(** In particular, for declarations without default values: made of exactly that. *)
Theorem C45_from_text : forall (tk : tokenizer) yerr ts s l g (a : api tk),
  read_by yerr ts s l g a -> defaults_text (scalar_in ts) (key_in ts) s ->
  (forall pi p v, get pi (m_root (a_m a)) = Some p -> get_value p = Some v -> made (scalar_in ts) (key_in ts) v) /\
  exists l', past a = (l ++ l')%list /\ Forall (told_made (scalar_in ts) (key_in ts)) l'.
Proof. exact (@c45_from_text). Qed.
Print Assumptions C45_from_text.

(** Every document, in any chunks, accepted or refused, with any callbacks: a new parser
    shows and tells nothing but what is made of the scalars and keys of its text. *)
Theorem C45_document : forall (tk : tokenizer) E g yerr (SC : scalar -> Prop) (KY : string -> Prop) s l M b bufs bs (a' : api tk),
  content M (b :: bufs) = Some bs ->
  let ts := fst (tokenize tk bs) in
  defaults_text SC KY s -> (forall x, In (TSc x) ts -> SC x) -> (forall k, In (TKey k) ts -> KY k) ->
  (document E g yerr M (b :: bufs) (start tk g (mk s) l) = AOk a' \/
   exists e, document E g yerr M (b :: bufs) (start tk g (mk s) l) = AThrow e a') ->
  (forall pi p v, get pi (m_root (a_m a')) = Some p -> get_value p = Some v -> made SC KY v) /\
  exists l', past a' = (l ++ l')%list /\ Forall (told_made SC KY) l'.
Proof. exact (@c45_document). Qed.
Print Assumptions C45_document.

(** A parser that has been used for other documents: with C44, nothing of an earlier
    document (values, keys, elements, callback arguments) is seen in the next.  Conditions
    as in C44. *)
Theorem C45_no_leak : forall (tk : tokenizer) E g yerr flat (SC : scalar -> Prop) (KY : string -> Prop) s (a a' : api tk) M b bufs bs,
  same_eyes E -> regular flat s = true -> history g yerr s a -> at_start a ->
  content M (b :: bufs) = Some bs ->
  let ts := fst (tokenize tk bs) in
  values_lead true ts -> (flat = true \/ ~ In TNull ts) ->
  (exists t r, ts = t :: r /\ opener (kind_s s) t = true) ->
  defaults_text SC KY s -> (forall x, In (TSc x) ts -> SC x) -> (forall k, In (TKey k) ts -> KY k) ->
  (document E g yerr M (b :: bufs) a = AOk a' \/ exists e, document E g yerr M (b :: bufs) a = AThrow e a') ->
  (forall v, shown (view_of (m_root (a_m a'))) v -> made SC KY v) /\
  exists l', past a' = (past a ++ l')%list /\ Forall (told_made SC KY) l'.
Proof. exact (@c45_no_leak). Qed.
Print Assumptions C45_no_leak.

(** For JSON text: any bytes at all. *)
Theorem C45_no_leak_json : forall E g yerr flat (SC : scalar -> Prop) (KY : string -> Prop) s (a a' : api json_tk) M b bufs bs,
  same_eyes E -> regular flat s = true -> history g yerr s a -> at_start a ->
  content M (b :: bufs) = Some bs ->
  let ts := fst (tokenize json_tk bs) in
  (flat = true \/ ~ In TNull ts) ->
  (exists t r, ts = t :: r /\ opener (kind_s s) t = true) ->
  defaults_text SC KY s -> (forall x, In (TSc x) ts -> SC x) -> (forall k, In (TKey k) ts -> KY k) ->
  (document E g yerr M (b :: bufs) a = AOk a' \/ exists e, document E g yerr M (b :: bufs) a = AThrow e a') ->
  (forall v, shown (view_of (m_root (a_m a'))) v -> made SC KY v) /\
  exists l', past a' = (past a ++ l')%list /\ Forall (told_made SC KY) l'.
Proof. exact (@c45_no_leak_json). Qed.
Print Assumptions C45_no_leak_json.

(* C46.  Concrete cases: Examples.v, ex_C46, ex_C46_collecting. *)
(** After any calls: what the parser objects hold is bounded by the declaration and the
    nesting of the document (skipped unknown members need one mark per level), however
    long it is; after finish() only the declaration counts, except for documents that
    failed. *)
Theorem C46_held : forall (tk : tokenizer) yerr n ts s g (a : api tk),
  compiles s -> streaming s = true -> streamed yerr n ts s g a ->
  held (m_root (a_m a)) <= slots s + n + nesting 0 ts.
Proof. exact (@c46_held). Qed.
Print Assumptions C46_held.

(** ... and between any two tokens of the next call ([us]: reported so far), in
    particular whenever a callback is invoked or an error is reported. *)
Theorem C46_at_any_moment : forall (tk : tokenizer) yerr n ts s g (a : api tk) E us m,
  compiles s -> streaming s = true -> streamed yerr n ts s g a ->
  let m0 := if a_reset a then dispatcher_reset (a_m a) else a_m a in
  (run E g us m0 = ROk m \/ exists e, run E g us m0 = RThrow e m) ->
  held (m_root m) <= slots s + n + nesting 0 (ts ++ us).
Proof. exact (@c46_at_any_moment). Qed.
Print Assumptions C46_at_any_moment.

(** Then it holds exactly what a new one holds. *)
Theorem C46_constant : forall (tk : tokenizer) yerr s g (a : api tk),
  compiles s -> streaming s = true -> all_read yerr s g a ->
  held (m_root (a_m a)) = slots s.
Proof. exact (@c46_constant). Qed.
Print Assumptions C46_constant.

(* C47.  Concrete cases: Examples.v, ex_C47. *)
(** Every parse() call, with any text, of a Parser in any state: *)
Theorem C47_parse : forall (tk : tokenizer) E g yerr M b bs (a : api tk), M b = Some bs ->
  same_or_cut E (parse E g yerr M b a) (parse (plenty E) g yerr M b a).
Proof. exact (@c47_parse). Qed.
Print Assumptions C47_parse.

(** Every finish() call, if the buffer of the last parse() call is alive: *)
Theorem C47_finish : forall (tk : tokenizer) E g yerr M (a : api tk),
  (forall b n, a_data a = Some (b, n) -> exists bytes, M b = Some bytes /\ n <= List.length bytes) ->
  same_or_cut E (Api.finish E g yerr M a) (Api.finish (plenty E) g yerr M a).
Proof. exact (@c47_finish). Qed.
Print Assumptions C47_finish.

(** Every document, in any chunks: *)
Theorem C47_document : forall (tk : tokenizer) E g yerr M b bufs bs (a : api tk), content M (b :: bufs) = Some bs ->
  same_or_cut E (document E g yerr M (b :: bufs) a) (document (plenty E) g yerr M (b :: bufs) a).
Proof. exact (@c47_document). Qed.
Print Assumptions C47_document.

(** In particular a document that is accepted in spite of failing allocations has exactly
    the effect it has with enough memory. *)
Theorem C47_accepted : forall (tk : tokenizer) E g yerr M b bufs bs (a a' : api tk), content M (b :: bufs) = Some bs ->
  document E g yerr M (b :: bufs) a = AOk a' -> document (plenty E) g yerr M (b :: bufs) a = AOk a'.
Proof. exact (@c47_accepted). Qed.
Print Assumptions C47_accepted.

(** The parser is usable afterwards: of a declaration without arrays, unions and Ignore
    ([clean]), whatever allocations fail in a document ([E]: no condition), the next one,
    with enough memory, is replied to as by a new parser.  (C44 has the same for failures
    outside of arrays, for more declarations.) *)
Theorem C47_next_document : forall (tk : tokenizer) E E' g yerr flat s (a a1 : api tk) M1 b1 bufs1 M b bufs bs,
  clean s = true -> regular flat s = true -> history g yerr s a ->
  (document E g yerr M1 (b1 :: bufs1) a = AOk a1 \/ exists x, document E g yerr M1 (b1 :: bufs1) a = AThrow x a1) ->
  same_eyes E' -> at_start a1 -> content M (b :: bufs) = Some bs -> values_lead true (fst (tokenize tk bs)) ->
  (flat = true \/ ~ In TNull (fst (tokenize tk bs))) ->
  same_reply (exists t r, fst (tokenize tk bs) = t :: r /\ opener (kind_s s) t = true)
    (document E' g yerr M (b :: bufs) a1) (document E' g yerr M (b :: bufs) (start tk g (mk s) (past a1))).
Proof. exact (@c47_next_document). Qed.
Print Assumptions C47_next_document.

(** ParsingError, but the parser is set and shows the value of the earlier document:
    Value::on() assigns the value before it marks the parser, value.cpp:60-64. *)
Theorem C47_stale_value_refuted : match docs yes "a" (new (SVal TyStr None)) with
  | AOk a =>
      match document oom 0 ye (mem_of ["b"]) [0] a with
      | AThrow x a' => pe_sj x = "std::bad_alloc" /\ root_set a' = true /\
          v_val (view_of (m_root (a_m a'))) = Some (VSc (SStr "a"))
      | _ => False
      end
  | _ => False
  end.
Proof. exact (@c47_stale_value_refuted). Qed.
Print Assumptions C47_stale_value_refuted.

(* C11.  Concrete cases: Examples.v, ex_C11_rejected, ex_C11_ignored, ex_C11_values. *)
(** By default an unknown member is an error, whatever surrounds it ([own]: no
    earlier member is an embedded union, which would take the rest of the object).
    The message names it, if everything before it is acceptable. *)
Theorem C11_unknown_rejected : forall (tk : tokenizer) g yerr P k ms cb (a : api tk) M b bufs ps1 key v ps2,
  reads g yerr (SObj k ms false cb) a M b bufs (JObj (ps1 ++ (key, v) :: ps2)) ->
  supported (JObj (ps1 ++ (key, v) :: ps2)) (SObj k ms false cb) = true ->
  own ms ps1 -> declared ms key = None ->
  exists l m, doc g yerr P M b bufs a = Failed l m /\
    (members_free P ms -> Forall (pair_ok P ms false) ps1 ->
       l = (past a ++ flat_map (pair_events P ms) ps1)%list /\ m = c_str ("Unexpected member " ++ key)).
Proof. exact (@c11_unknown_rejected). Qed.
Print Assumptions C11_unknown_rejected.

(** With Reaction::Ignore: the document without the member has the same outcome
    (values, error, callbacks with their arguments). *)
Theorem C11_unknown_ignored : forall (tk : tokenizer) g yerr P k ms cb (a : api tk) M b bufs M' b' bufs' ps1 key v ps2,
  reads g yerr (SObj k ms true cb) a M b bufs (JObj (ps1 ++ (key, v) :: ps2)) ->
  supported (JObj (ps1 ++ (key, v) :: ps2)) (SObj k ms true cb) = true ->
  reads g yerr (SObj k ms true cb) a M' b' bufs' (JObj (ps1 ++ ps2)) ->
  own ms ps1 -> declared ms key = None -> (ps1 ++ ps2)%list <> [] ->
  doc g yerr P M b bufs a = doc g yerr P M' b' bufs' a.
Proof. exact (@c11_unknown_ignored). Qed.
Print Assumptions C11_unknown_ignored.

(** At any depth: replacing the values of all ignored members by null ([blank])
    does not change the outcome. *)
Theorem C11_ignored_values : forall (tk : tokenizer) g yerr P s (a : api tk) M b bufs M' b' bufs' j,
  reads g yerr s a M b bufs j -> supported j s = true ->
  reads g yerr s a M' b' bufs' (blank j s) ->
  doc g yerr P M b bufs a = doc g yerr P M' b' bufs' a.
Proof. exact (@c11_ignored_values). Qed.
Print Assumptions C11_ignored_values.

(** False if the ignored value has a null inside: "[~]" makes the document fail,
    and in "{Y~A5}" the member A of the ignored object is taken for the parser's
    own member (callback 7 runs with 5). *)
Theorem C11_nested_null_refuted : exists s, s = SObj OPlain [(mkM (SStr "A") true None, SVal TyInt (Some 7))] true None /\
    (exists w, result (docs yes "{X[1]}" (new s)) = Parsed [] w) /\
    (exists m, result (docs yes "{X[~]}" (new s)) = Failed [] m) /\
    (exists w, result (docs yes "{X{Y1A5}}" (new s)) = Parsed [] w) /\
    (exists m, result (docs yes "{X{Y~A5}}" (new s)) = Failed [Ev 7 (OVal (VSc (SInt 5)))] m).
Proof. exact (@c11_nested_null_refuted). Qed.
Print Assumptions C11_nested_null_refuted.

(* C12.  Concrete cases: Examples.v, ex_C12, ex_C12_callbacks. *)
Theorem C12_member_order : forall (tk : tokenizer) g yerr P k ms ign cb (a : api tk) M b bufs M' b' bufs' ps qs l w,
  reads g yerr (SObj k ms ign cb) a M b bufs (JObj ps) ->
  reads g yerr (SObj k ms ign cb) a M' b' bufs' (JObj qs) ->
  supported (JObj ps) (SObj k ms ign cb) = true -> supported (JObj qs) (SObj k ms ign cb) = true ->
  members_free P ms -> (forall c, cb = Some c -> unaware P c) -> named ms ->
  Permutation ps qs -> NoDup (map fst ps) ->
  doc g yerr P M b bufs a = Parsed l w ->
  exists last, map ev_id last = (if match ps with [] => true | _ => false end then [] else opt_id cb) /\
    l = (past a ++ flat_map (pair_events P ms) ps ++ last)%list /\
    doc g yerr P M' b' bufs' a = Parsed (past a ++ flat_map (pair_events P ms) qs ++ last) w.
Proof. exact (@c12_member_order). Qed.
Print Assumptions C12_member_order.

(** If the members have no callbacks, the object's own callback may also depend on the
    past: the outcome is the same. *)
Theorem C12_member_order_same : forall (tk : tokenizer) g yerr P k ms ign cb (a : api tk) M b bufs M' b' bufs' ps qs l w,
  reads g yerr (SObj k ms ign cb) a M b bufs (JObj ps) ->
  reads g yerr (SObj k ms ign cb) a M' b' bufs' (JObj qs) ->
  supported (JObj ps) (SObj k ms ign cb) = true -> supported (JObj qs) (SObj k ms ign cb) = true ->
  members_plain ms = true -> named ms ->
  Permutation ps qs -> NoDup (map fst ps) ->
  doc g yerr P M b bufs a = Parsed l w ->
  doc g yerr P M' b' bufs' a = Parsed l w.
Proof. exact (@c12_member_order_same). Qed.
Print Assumptions C12_member_order_same.

(* C13.  Concrete cases: Examples.v, ex_C13_callbacks, ex_C13. *)
(** The members of a parsed object show the last occurrence of their key, unless the
    object's callback pops them.  (The members of an SAutoObject are emptied into its
    tuple.) *)
Theorem C13_last_occurrence : forall (tk : tokenizer) g yerr P k ms ign cb (a : api tk) M b bufs ps l w,
  k = OPlain \/ k = OCustom -> (forall c l o, cb = Some c -> a_pops (p_cb P c l o) = []) ->
  reads g yerr (SObj k ms ign cb) a M b bufs (JObj ps) ->
  supported (JObj ps) (SObj k ms ign cb) = true ->
  members_free P ms -> named ms ->
  doc g yerr P M b bufs a = Parsed l w ->
  forall i m c n, nth_error ms i = Some (m, c) -> m_name m = SStr n ->
  nth_error (v_kids w) i =
  Some match last_of n ps with
       | Some j => match meaning P c j with inr w => w | inl _ => fresh c end
       | None => fresh c
       end.
Proof. exact (@c13_last_occurrence). Qed.
Print Assumptions C13_last_occurrence.

Theorem C13_earlier_dropped : forall (tk : tokenizer) g yerr P k ms ign cb (a : api tk) M b bufs M' b' bufs' ps1 key v ps2 l w,
  reads g yerr (SObj k ms ign cb) a M b bufs (JObj (ps1 ++ (key, v) :: ps2)) ->
  reads g yerr (SObj k ms ign cb) a M' b' bufs' (JObj (ps1 ++ ps2)) ->
  supported (JObj (ps1 ++ (key, v) :: ps2)) (SObj k ms ign cb) = true ->
  members_free P ms -> (forall c, cb = Some c -> unaware P c) -> named ms -> In key (map fst ps2) ->
  doc g yerr P M b bufs a = Parsed l w ->
  exists l1 l2, l = (l1 ++ pair_events P ms (key, v) ++ l2)%list /\
    doc g yerr P M' b' bufs' a = Parsed (l1 ++ l2) w.
Proof. exact (@c13_earlier_dropped). Qed.
Print Assumptions C13_earlier_dropped.

(** If the members have no callbacks: the outcome is the same, whatever the object's own
    callback looks at. *)
Theorem C13_earlier_dropped_same : forall (tk : tokenizer) g yerr P k ms ign cb (a : api tk) M b bufs M' b' bufs' ps1 key v ps2 l w,
  reads g yerr (SObj k ms ign cb) a M b bufs (JObj (ps1 ++ (key, v) :: ps2)) ->
  reads g yerr (SObj k ms ign cb) a M' b' bufs' (JObj (ps1 ++ ps2)) ->
  supported (JObj (ps1 ++ (key, v) :: ps2)) (SObj k ms ign cb) = true ->
  members_plain ms = true -> named ms -> In key (map fst ps2) ->
  doc g yerr P M b bufs a = Parsed l w ->
  doc g yerr P M' b' bufs' a = Parsed l w.
Proof. exact (@c13_earlier_dropped_same). Qed.
Print Assumptions C13_earlier_dropped_same.

(* C14.  Concrete cases: Examples.v, ex_C14. *)
Theorem C14_empty_object : forall (tk : tokenizer) g yerr P s (a : api tk) M b bufs,
  match s with SObj _ _ _ _ => True | SUni _ _ tm _ _ => tm <> "" | _ => False end ->
  reads g yerr s a M b bufs (JObj []) ->
  doc g yerr P M b bufs a = Parsed (past a) (fresh s) /\ v_set (fresh s) = false /\ v_empty (fresh s) = true.
Proof. exact (@c14_empty_object). Qed.
Print Assumptions C14_empty_object.

(* C15.  Concrete cases: Examples.v, ex_C15, ex_C15_pop. *)
(** get<n>() and pop<n>() of an object or union whose member n is of a storing
    class, in any state. *)
Theorem C15_get_pop : forall n p m q, member_at n p = Some (m, q) -> stored q <> None ->
  (is_set q = true -> exists v,
     get_value q = Some v /\ get_nth n p = GVal v /\ fst (pop_nth n p) = GVal v /\
     exists q', member_at n (snd (pop_nth n p)) = Some (m, q') /\ is_set q' = false) /\
  (is_set q = false ->
     (forall d, m_def m = Some d -> get_nth n p = GVal d /\ pop_nth n p = (GVal d, p)) /\
     (m_def m = None -> get_nth n p = GThrow msg_unset /\ pop_nth n p = (GThrow msg_unset, p))).
Proof. exact (@c15_get_pop). Qed.
Print Assumptions C15_get_pop.

(** After a parsed document: get<n>() gives the value of the last occurrence of
    the member's key, the default if there is none or it is null, and throws if
    there is no default. *)
Theorem C15_get_after_document : forall (tk : tokenizer) g yerr P ms ign cb (a a' : api tk) M b bufs ps,
  (forall c l o, cb = Some c -> a_pops (p_cb P c l o) = []) ->
  reads g yerr (SObj OPlain ms ign cb) a M b bufs (JObj ps) ->
  supported (JObj ps) (SObj OPlain ms ign cb) = true ->
  members_free P ms -> named ms ->
  document (lift P) g yerr M (b :: bufs) a = AOk a' ->
  forall i m c n, nth_error ms i = Some (m, c) -> m_name m = SStr n -> stores c = true ->
  get_nth i (m_root (a_m a')) =
  let w := match last_of n ps with
           | Some j => match meaning P c j with inr w => w | inl _ => fresh c end
           | None => fresh c
           end in
  if v_set w then match v_val w with Some v => GVal v | None => GThrow msg_unset end
  else match m_def m with Some d => GVal d | None => GThrow msg_unset end.
Proof. exact (@c15_get_after_document). Qed.
Print Assumptions C15_get_after_document.

(** "get() throws after pop()" (value.h, object.h): false for a member with a
    default value. *)
Theorem C15_get_after_pop_refuted : exists s text a, docs yes text (new s) = AOk a /\
    let p := m_root (a_m a) in
    fst (pop_nth 0 p) = GVal (VSc (SInt 5)) /\
    get_nth 0 (snd (pop_nth 0 p)) = GVal (VSc (SInt 4)).
Proof. exact (@c15_get_after_pop_refuted). Qed.
Print Assumptions C15_get_after_pop_refuted.

Theorem C16_get_pop_contract : forall p, stored p <> None ->
  (is_set p = true ->
     exists v p', stored p = Some v /\ get_value p = Some v /\ pop_value p = Some (v, p') /\
       is_set p' = false /\ get_value p' = None /\ pop_value p' = None /\
       is_empty p' = is_empty p /\ v_kids (view_of p') = v_kids (view_of p) /\ schema_of p' = schema_of p) /\
  (is_set p = false -> get_value p = None /\ pop_value p = None).
Proof. exact (@c16_get_pop_contract). Qed.
Print Assumptions C16_get_pop_contract.

(* C17.  Concrete cases: Examples.v, ex_C17, ex_C17_errors. *)
(** The member whose name equals the type value parses the rest, exactly as if it
    were a parser of its own (Parser [a'], with the same callback history) given
    the rest as an object; then the union ends. *)
Theorem C17_union_selects : forall (tk : tokenizer) g yerr P st t tm ms cb (a a' : api tk) M b bufs M' b' bufs' x rest i m c,
  tm <> "" -> reads g yerr (SUni st t tm ms cb) a M b bufs (JObj ((tm, JSc x) :: rest)) ->
  supported (JObj ((tm, JSc x) :: rest)) (SUni st t tm ms cb) = true ->
  ty_of x = t -> index_of x ms = Some i -> nth_error ms i = Some (m, c) -> object_like c = true ->
  reads g yerr c a' M' b' bufs' (JObj rest) -> past a' = past a ->
  match doc g yerr P M' b' bufs' a' with
  | Failed l e => doc g yerr P M b bufs a = Failed l e
  | Parsed l w =>
      doc g yerr P M b bufs a =
        expected (end_union P st cb i m w (map (fun mp => fresh (snd mp)) ms) l) /\
      (st = false -> cb = None -> v_set w || m_opt m = true ->
         doc g yerr P M b bufs a =
         Parsed l (View true false None i (set_nth i w (map (fun mp => fresh (snd mp)) ms)))) /\
      (st = false -> v_set w || m_opt m = false ->
         doc g yerr P M b bufs a = Failed l (c_str ("Mandatory member #" ++ n2s i ++ " is not present"))) /\
      (forall v, st = true -> cb = None ->
         (if v_set w then v_val w = Some v else m_opt m = true /\ m_def m = Some v) ->
         match p_store P v with
         | None => exists kids, doc g yerr P M b bufs a = Parsed l (View true false (Some (VVar i v)) i kids)
         | Some e => doc g yerr P M b bufs a = Failed l (c_str ("Can not set value: " ++
                       match e with XStd m => c_str m | XOther => "unknown exception" end))
         end) /\
      (st = true -> v_set w = false -> m_def m = None ->
         doc g yerr P M b bufs a = Failed l (c_str ("Can not set value: " ++
           c_str (if m_opt m then "Optional member #" ++ n2s i ++ " does not have a default value"
                  else "Mandatory member #" ++ n2s i ++ " is not present"))))
  | Broken => False
  end.
Proof. exact (@c17_union_selects). Qed.
Print Assumptions C17_union_selects.

(** Unknown type, type of another type, another first key: errors. *)
Theorem C17_union_errors : forall (tk : tokenizer) g yerr P st t tm ms cb (a : api tk) M b bufs k v rest,
  tm <> "" -> reads g yerr (SUni st t tm ms cb) a M b bufs (JObj ((k, v) :: rest)) ->
  (k <> tm -> doc g yerr P M b bufs a = Failed (past a) (c_str ("Unexpected member " ++ k))) /\
  (k = tm -> forall x, v = JSc x -> ty_of x <> t ->
     doc g yerr P M b bufs a = Failed (past a) (c_str ("Unexpected token " ++ tok_kind (TSc x)))) /\
  (k = tm -> forall x, v = JSc x -> ty_of x = t ->
     (forall mp, In mp ms -> ~ same_name (m_name (fst mp)) x) ->
     doc g yerr P M b bufs a = Failed (past a) (c_str ("Unexpected member " ++ fmt_scalar (p_fmt P) x))) /\
  (k = tm -> forall js, v = JArr js -> doc g yerr P M b bufs a = Failed (past a) "Unexpected token array start").
Proof. exact (@c17_union_errors). Qed.
Print Assumptions C17_union_errors.

(* C18.  Concrete cases: Examples.v, ex_C18. *)
(** Members [ps1], then the type of an embedded union, then the rest: [ps1] is
    parsed by the object, the rest by the selected member, and the end of the
    document ends the selected member, the union and the object, in this order. *)
Theorem C18_embedded_union : forall (tk : tokenizer) g yerr P k ms ign cb (a : api tk) M b bufs ps1 key x rest st t ums ucb i j m c,
  reads g yerr (SObj k ms ign cb) a M b bufs (JObj (ps1 ++ (key, JSc x) :: rest)) ->
  supported (JObj (ps1 ++ (key, JSc x) :: rest)) (SObj k ms ign cb) = true ->
  own ms ps1 -> index_of (SStr key) ms = Some i ->
  option_map snd (nth_error ms i) = Some (SUni st t "" ums ucb) ->
  ty_of x = t -> index_of x ums = Some j -> nth_error ums j = Some (m, c) -> object_like c = true ->
  (forall l1 kids l2 w l3 u,
     members P ms ign ps1 (map (fun mp => fresh (snd mp)) ms) (past a) = (l1, inr kids) ->
     den P (JObj rest) c l1 = (l2, inr w) ->
     end_union P st ucb j m w (map (fun mp => fresh (snd mp)) ums) l2 = (l3, inr u) ->
     doc g yerr P M b bufs a = expected (end_object P k ms cb false (set_nth i u kids) l3)) /\
  (forall l w, doc g yerr P M b bufs a = Parsed l w ->
     exists evs, l = (past a ++ evs)%list /\
       map ev_id evs = (members_ids ms ps1 ++ ids (JObj rest) c ++ opt_id ucb ++ opt_id cb)%list).
Proof. exact (@c18_embedded_union). Qed.
Print Assumptions C18_embedded_union.

(* C19.  Concrete cases: Examples.v, ex_C19. *)
Theorem C19_accepted_matches : forall (tk : tokenizer) g yerr P s (a : api tk) M b bufs j l w,
  reads g yerr s a M b bufs j -> supported j s = true ->
  doc g yerr P M b bufs a = Parsed l w -> verdict j s <> None.
Proof. exact (@c19_accepted_matches). Qed.
Print Assumptions C19_accepted_matches.

Theorem C19_accepted_iff_matches : forall (tk : tokenizer) g yerr P s (a : api tk) M b bufs j,
  agreeable P -> reads g yerr s a M b bufs j -> supported j s = true ->
  ((exists l w, doc g yerr P M b bufs a = Parsed l w) <-> verdict j s <> None).
Proof. exact (@c19_accepted_iff_matches). Qed.
Print Assumptions C19_accepted_iff_matches.

Theorem C19_unsupported_refuted : exists s text j, tokenize toy (toy_text text) = (toks j, Some None) /\ verdict j s = None /\
    exists w, result (docs yes text (new s)) = Parsed [Ev 3 (OVal (VSc (SInt 2))); Ev 3 (OVal (VSc (SInt 1)))] w.
Proof. exact (@c19_unsupported_refuted). Qed.
Print Assumptions C19_unsupported_refuted.

(* C20.  Concrete cases: Examples.v, ex_C20. *)
(** A null in place of the type of an embedded union (or of any other member):
    as if it were absent. *)
Theorem C20_null_member_absent : forall (tk : tokenizer) g yerr P k ms ign cb (a : api tk) M b bufs M' b' bufs' ps1 key ps2,
  reads g yerr (SObj k ms ign cb) a M b bufs (JObj (ps1 ++ (key, JNull) :: ps2)) ->
  supported (JObj (ps1 ++ (key, JNull) :: ps2)) (SObj k ms ign cb) = true ->
  reads g yerr (SObj k ms ign cb) a M' b' bufs' (JObj (ps1 ++ ps2)) ->
  own ms ps1 -> declared ms key <> None -> ~ In key (map fst ps1) -> (ps1 ++ ps2)%list <> [] ->
  doc g yerr P M b bufs a = doc g yerr P M' b' bufs' a.
Proof. exact (@c20_null_member_absent). Qed.
Print Assumptions C20_null_member_absent.

Theorem C20_standalone_null_type_refuted : exists s, s = SObj OPlain [(mkM (SStr "U") true None, ux);
                             (mkM (SStr "X") true None, SVal TyInt (Some 9))] false None /\
    (* member X of the union's own object reaches the enclosing object's member X *)
    (exists w, result (docs yes "{U{T1X5}}" (new s)) = Parsed [Ev 3 (OVal (VSc (SInt 5)))] w) /\
    (exists m, result (docs yes "{U{T~X5}}" (new s)) = Failed [Ev 9 (OVal (VSc (SInt 5)))] m).
Proof. exact (@c20_standalone_null_type_refuted). Qed.
Print Assumptions C20_standalone_null_type_refuted.

(* C48.  Concrete cases: Examples.v, ex_C48. *)
(** Every error of every document, in any chunks, has one of these causes; the declaration
    (names, options) to which it refers is unchanged. *)
Theorem C48_cause : forall (tk : tokenizer) E g yerr M b bufs bs (a a' : api tk) e, at_start a ->
  content M (b :: bufs) = Some bs -> document E g yerr M (b :: bufs) a = AThrow e a' ->
  ruling E bs e a' /\ schema_of (m_root (a_m a')) = schema_of (m_root (a_m a)).
Proof. exact (@c48_cause). Qed.
Print Assumptions C48_cause.

(** The error of Dispatcher::popParser (internals/dispatcher.cpp:40) is never reported:
    a parser that ends is on the stack. *)
Theorem C48_never_pops_empty : forall (tk : tokenizer) E g yerr M b bufs bs (a a' : api tk) e, at_start a ->
  content M (b :: bufs) = Some bs -> document E g yerr M (b :: bufs) a = AThrow e a' ->
  pe_sj e = "Can not pop parser, parsers stack is empty" ->
  exists x, foreign E x /\ caught x = "Can not pop parser, parsers stack is empty".
Proof. exact (@c48_never_pops_empty). Qed.
Print Assumptions C48_never_pops_empty.

(* C49.  Concrete cases: Examples.v, ex_C49. *)
(** Callbacks are invoked at the right moments only: after any past, any document, in any
    chunks, has the same outcome, whatever the callbacks would do at other moments. *)
Theorem C49_callbacks : forall (tk : tokenizer) yerr s l g (a : api tk) E E' M b bufs bs,
  used yerr s l g a -> at_start a -> content M (b :: bufs) = Some bs -> values_lead true (fst (tokenize tk bs)) ->
  other_callbacks E E' -> (forall c h T x, due c T x -> e_cb E' c h T x = e_cb E c h T x) ->
  observe (document E' g yerr M (b :: bufs) a) = observe (document E g yerr M (b :: bufs) a).
Proof. exact (@c49_callbacks). Qed.
Print Assumptions C49_callbacks.

(** For yajl's tokens that is every text. *)
Theorem C49_callbacks_json : forall yerr s l g (a : api json_tk) E E' M b bufs bs,
  used yerr s l g a -> at_start a -> content M (b :: bufs) = Some bs ->
  other_callbacks E E' -> (forall c h T x, due c T x -> e_cb E' c h T x = e_cb E c h T x) ->
  observe (document E' g yerr M (b :: bufs) a) = observe (document E g yerr M (b :: bufs) a).
Proof. exact (@c49_callbacks_json). Qed.
Print Assumptions C49_callbacks_json.

(** Between two parse() calls. *)
Theorem C49_between_calls : forall (tk : tokenizer) yerr s l g (a a' : api tk) E M b bufs bs,
  used yerr s l g a -> no_arr_uni s = true -> at_start a -> content M (b :: bufs) = Some bs ->
  values_lead true (fst (tokens tk bs (tk_init tk))) ->
  parse_all E g yerr M (b :: bufs) a = AOk a' ->
  veiled true (a_m a') /\
  (forall ts t, fst (tokens tk bs (tk_init tk)) = (ts ++ [t])%list -> (forall k, t <> TKey k) -> veiled false (a_m a')).
Proof. exact (@c49_between_calls). Qed.
Print Assumptions C49_between_calls.

(** After an error, in parse() or finish(). *)
Theorem C49_error : forall (tk : tokenizer) yerr s l g (a a' : api tk) E M b bufs bs e,
  used yerr s l g a -> no_arr_uni s = true -> at_start a -> content M (b :: bufs) = Some bs ->
  values_lead true (fst (tokenize tk bs)) ->
  document E g yerr M (b :: bufs) a = AThrow e a' -> veiled true (a_m a').
Proof. exact (@c49_error). Qed.
Print Assumptions C49_error.

Theorem C49_between_calls_json : forall yerr s l g (a a' : api json_tk) E M b bufs bs,
  used yerr s l g a -> no_arr_uni s = true -> at_start a -> content M (b :: bufs) = Some bs ->
  parse_all E g yerr M (b :: bufs) a = AOk a' ->
  veiled true (a_m a') /\
  (forall ts t, fst (tokens json_tk bs (tk_init json_tk)) = (ts ++ [t])%list -> (forall k, t <> TKey k) -> veiled false (a_m a')).
Proof. exact (@c49_between_calls_json). Qed.
Print Assumptions C49_between_calls_json.

Theorem C49_error_json : forall yerr s l g (a a' : api json_tk) E M b bufs bs e,
  used yerr s l g a -> no_arr_uni s = true -> at_start a -> content M (b :: bufs) = Some bs ->
  document E g yerr M (b :: bufs) a = AThrow e a' -> veiled true (a_m a').
Proof. exact (@c49_error_json). Qed.
Print Assumptions C49_error_json.

(* C50.  Concrete cases: Examples.v, ex_C50, ex_C50_versions. *)
(** The new program reads an old document with the new declaration as the old program
    did with the old one: it is accepted, the same callbacks are invoked in the same
    order with the same values, and the parsers show the same values; added members are
    unset, and have their defaults in stored tuples. *)
Theorem C50_old_documents : forall (tk tk' : tokenizer) g g' yerr yerr' N R P P' s s' (a : api tk) (a' : api tk') M b bufs M' b' bufs' j l w,
  newer N R s s' -> nprog N R P P' -> avoids N j -> nlog N R (past a) (past a') ->
  reads g yerr s a M b bufs j -> reads g' yerr' s' a' M' b' bufs' j -> supported j s = true ->
  doc g yerr P M b bufs a = Parsed l w ->
  exists l' w', doc g' yerr' P' M' b' bufs' a' = Parsed l' w' /\ nlog N R l l' /\ nview R s s' w w'.
Proof. exact (@c50_old_documents). Qed.
Print Assumptions C50_old_documents.

(** Where unknown members are rejected nothing is asked of the document. *)
Theorem C50_strict : forall (tk tk' : tokenizer) g g' yerr yerr' R P P' s s' (a : api tk) (a' : api tk') M b bufs M' b' bufs' j l w,
  newer [] R s s' -> nprog [] R P P' -> nlog [] R (past a) (past a') ->
  reads g yerr s a M b bufs j -> reads g' yerr' s' a' M' b' bufs' j -> supported j s = true ->
  doc g yerr P M b bufs a = Parsed l w ->
  exists l' w', doc g' yerr' P' M' b' bufs' a' = Parsed l' w' /\ nlog [] R l l' /\ nview R s s' w w'.
Proof. exact (@c50_strict). Qed.
Print Assumptions C50_strict.

Theorem C50_accepted : forall (tk tk' : tokenizer) g g' yerr yerr' N R P P' s s' (a : api tk) (a' : api tk') M b bufs M' b' bufs' j l w,
  newer N R s s' -> avoids N j -> agreeable P' ->
  reads g yerr s a M b bufs j -> reads g' yerr' s' a' M' b' bufs' j -> supported j s = true ->
  doc g yerr P M b bufs a = Parsed l w ->
  exists l' w', doc g' yerr' P' M' b' bufs' a' = Parsed l' w'.
Proof. exact (@c50_accepted). Qed.
Print Assumptions C50_accepted.

(** Parsers that do not store instead of those that store: at least the same documents. *)
Theorem C50_not_storing : forall (tk tk' : tokenizer) g g' yerr yerr' P P' s s' (a : api tk) (a' : api tk') M b bufs M' b' bufs' j l w,
  lighter false s s' -> agreeable P' ->
  reads g yerr s a M b bufs j -> reads g' yerr' s' a' M' b' bufs' j -> supported j s = true ->
  doc g yerr P M b bufs a = Parsed l w ->
  exists l' w', doc g' yerr' P' M' b' bufs' a' = Parsed l' w'.
Proof. exact (@c50_not_storing). Qed.
Print Assumptions C50_not_storing.

Theorem C50_versions : forall (tk tk' : tokenizer) g g' yerr yerr' N P P' s s' (a : api tk) (a' : api tk') M b bufs M' b' bufs' j l w,
  versions N s s' -> avoids N j -> agreeable P' ->
  reads g yerr s a M b bufs j -> reads g' yerr' s' a' M' b' bufs' j -> supported j s = true ->
  doc g yerr P M b bufs a = Parsed l w ->
  exists l' w', doc g' yerr' P' M' b' bufs' a' = Parsed l' w'.
Proof. exact (@c50_versions). Qed.
Print Assumptions C50_versions.

(* C51.  Concrete cases: Examples.v, ex_C51. *)
(** No call is left out of the count: what a call does and returns is determined by the
    results of the calls that are counted for it. *)
Theorem C51_every_call : forall E g (rec1 rec2 : call -> mstate -> res) c s,
  (forall c' s', In (c', s') (calls_of E g rec1 c s) -> rec1 c' s' = rec2 c' s') ->
  Model.body E g rec1 c s = Model.body E g rec2 c s.
Proof. exact (@c51_every_call). Qed.
Print Assumptions C51_every_call.

(** After any past, whatever the declaration, the tokens and the callbacks, the parsers
    make no more calls for the document than that, whether it is accepted or not. *)
Theorem C51_calls : forall (tk : tokenizer) yerr s l g (a : api tk) E bs,
  used yerr s l g a ->
  total_run E g (fst (tokenize tk bs)) (mkS (m_root (a_m a)) [[]] (m_log (a_m a)))
    <= budget (levels s) (List.length (fst (tokenize tk bs))).
Proof. exact (@c51_calls). Qed.
Print Assumptions C51_calls.

(** Nor are more callbacks invoked, in any chunks. *)
Theorem C51_callbacks : forall (tk : tokenizer) yerr s l g (a a' : api tk) E M b bufs bs,
  used yerr s l g a -> at_start a -> content M (b :: bufs) = Some bs ->
  (document E g yerr M (b :: bufs) a = AOk a' \/ exists e, document E g yerr M (b :: bufs) a = AThrow e a') ->
  List.length (past a') <= List.length (past a) + budget (levels s) (List.length (fst (tokenize tk bs))).
Proof. exact (@c51_callbacks). Qed.
Print Assumptions C51_callbacks.

(** A JSON text has no more tokens than bytes. *)
Theorem C51_tokens_json : forall bs, List.length (fst (tokenize json_tk bs)) <= List.length bs.
Proof. exact (@c51_tokens_json). Qed.
Print Assumptions C51_tokens_json.

(** So the calls for a JSON document are linear in its bytes. *)
Theorem C51_json : forall yerr s l g (a : api json_tk) E bs,
  used yerr s l g a ->
  total_run E g (fst (tokenize json_tk bs)) (mkS (m_root (a_m a)) [[]] (m_log (a_m a))) <= budget (levels s) (List.length bs).
Proof. exact (@c51_json). Qed.
Print Assumptions C51_json.

(* C52.  Concrete cases: Examples.v, ex_C52. *)
(** Array: the document [r1, ..., rn] for Array{e} does what the documents r1, ..., rn do for
    a Parser of e: the same callbacks with the same arguments in the same order, and the
    same error if there is one. *)
Theorem C52_array : forall (tk tk' : tokenizer) g g' yerr yerr' P e (a : api tk) (a1 : api tk') M b bufs js ds,
  reads g yerr (SArr false e None) a M b bufs (JArr js) -> supported (JArr js) (SArr false e None) = true ->
  history g' yerr' e a1 -> at_start a1 -> past a1 = past a -> Forall2 (text_for tk') ds js ->
  match one_by_one g' yerr' P ds a1 with
  | AOk a1' => exists w, doc g yerr P M b bufs a = Parsed (past a1') w /\ v_set w = true
  | AThrow y a1' => doc g yerr P M b bufs a = Failed (past a1') (pe_sj y)
  | _ => False
  end.
Proof. exact (@c52_array). Qed.
Print Assumptions C52_array.

(** SArray: its value is the values of the elements, each read as a document of its own. *)
Theorem C52_sarray : forall (tk tk' : tokenizer) g g' yerr yerr' P e (a : api tk) (a1 a1' : api tk') M b bufs js ds vs,
  reads g yerr (SArr true e None) a M b bufs (JArr js) -> supported (JArr js) (SArr true e None) = true ->
  forallb (fun j => negb (is_null j)) js = true ->
  history g' yerr' e a1 -> at_start a1 -> past a1 = past a -> Forall2 (text_for tk') ds js ->
  collect g' yerr' P ds a1 = Some (vs, a1') -> (forall v, In v vs -> p_store P v = None) ->
  exists w, doc g yerr P M b bufs a = Parsed (past a1') w /\ v_set w = true /\ v_val w = Some (VVec vs).
Proof. exact (@c52_sarray). Qed.
Print Assumptions C52_sarray.

(** Map: the same for the values of the pairs, whatever the keys. *)
Theorem C52_map : forall (tk tk' : tokenizer) g g' yerr yerr' P e (a : api tk) (a1 : api tk') M b bufs kvs ds,
  reads g yerr (SMp false e None None) a M b bufs (JObj kvs) -> supported (JObj kvs) (SMp false e None None) = true ->
  forallb (fun kv => supported (snd kv) e) kvs = true ->
  history g' yerr' e a1 -> at_start a1 -> past a1 = past a -> Forall2 (text_for tk') ds (map snd kvs) ->
  match one_by_one g' yerr' P ds a1 with
  | AOk a1' => exists w, doc g yerr P M b bufs a = Parsed (past a1') w /\ v_set w = true
  | AThrow y a1' => doc g yerr P M b bufs a = Failed (past a1') (pe_sj y)
  | _ => False
  end.
Proof. exact (@c52_map). Qed.
Print Assumptions C52_map.

Theorem C52_as_they_arrive : forall (tk tk' : tokenizer) g g' yerr yerr' P e (a : api tk) (a1 : api tk') M b bufs js ds,
  receives g yerr (SArr false e None) a M b bufs (TArrStart :: flat_map toks js) ->
  supported (JArr js) (SArr false e None) = true ->
  history g' yerr' e a1 -> at_start a1 -> past a1 = past a -> Forall2 (text_for tk') ds js ->
  match one_by_one g' yerr' P ds a1 with
  | AOk a1' => exists w, fed g yerr P M b bufs a = Parsed (past a1') w /\ v_set w = false
  | AThrow y a1' => fed g yerr P M b bufs a = Failed (past a1') (pe_sj y)
  | _ => False
  end.
Proof. exact (@c52_as_they_arrive). Qed.
Print Assumptions C52_as_they_arrive.

(** The program of Readme.md, for any number of records with any data, the members of each in any
    order, any JSON text of them in any buffers, after any history: the object callback is
    invoked exactly once for each record, in order, and the calls in it return the data of
    that record - the default value for a missing integer, whatever the records before. *)
Theorem C52_readme : forall (tk : tokenizer) g yerr P (a : api tk) M b bufs rows js,
  reads g yerr readme a M b bufs (JArr js) -> Forall2 row_json rows js ->
  (forall s, p_store P (VSc (SStr s)) = None) -> (forall l o, a_res (p_cb P 0 l o) = CTrue) ->
  exists ws w, doc g yerr P M b bufs a = Parsed (past a ++ map (fun v => Ev 0 (OSelf v)) ws) w /\ Forall2 written rows ws.
Proof. exact (@c52_readme). Qed.
Print Assumptions C52_readme.

Theorem C52_readme_text : forall g yerr P (a : api json_tk) M b bufs bs rows js,
  history g yerr readme a -> at_start a -> content M (b :: bufs) = Some bs ->
  json_text bs (JArr js) -> Forall2 row_json rows js ->
  (forall s, p_store P (VSc (SStr s)) = None) -> (forall l o, a_res (p_cb P 0 l o) = CTrue) ->
  exists ws w, doc g yerr P M b bufs a = Parsed (past a ++ map (fun v => Ev 0 (OSelf v)) ws) w /\ Forall2 written rows ws.
Proof. exact (@c52_readme_text). Qed.
Print Assumptions C52_readme_text.

(** While the text arrives: the records that are complete have been written, no other. *)
Theorem C52_readme_as_they_arrive : forall (tk : tokenizer) g yerr P (a : api tk) M b bufs rows js,
  receives g yerr readme a M b bufs (TArrStart :: flat_map toks js) -> Forall2 row_json rows js ->
  (forall s, p_store P (VSc (SStr s)) = None) -> (forall l o, a_res (p_cb P 0 l o) = CTrue) ->
  exists ws w, fed g yerr P M b bufs a = Parsed (past a ++ map (fun v => Ev 0 (OSelf v)) ws) w /\ Forall2 written rows ws.
Proof. exact (@c52_readme_as_they_arrive). Qed.
Print Assumptions C52_readme_as_they_arrive.

(* C53.  Concrete cases: Examples.v, ex_C53. *)
(** Further members anywhere where unknown members are ignored change nothing: values,
    callbacks and their arguments, errors. *)
Theorem C53_new_documents : forall (tk : tokenizer) g yerr P s (a : api tk) M b bufs M' b' bufs' j j',
  grown s j j' -> reads g yerr s a M b bufs j -> reads g yerr s a M' b' bufs' j' -> supported j' s = true ->
  doc g yerr P M' b' bufs' a = doc g yerr P M b bufs a.
Proof. exact (@c53_new_documents). Qed.
Print Assumptions C53_new_documents.

(** Not if the object was empty: "{}" is accepted, "{X1}" lacks the mandatory member. *)
Theorem C53_empty_refuted : exists s, s = SObj OPlain [(mkM (SStr "A") false None, SVal TyInt (Some 7))] true None /\
    (exists w, result (docs yes "{}" (new s)) = Parsed [] w) /\
    (exists m, result (docs yes "{X1}" (new s)) = Failed [] m).
Proof. exact (@c53_empty_refuted). Qed.
Print Assumptions C53_empty_refuted.

(* C54.  Concrete cases: Examples.v, ex_C54, ex_C54_outcomes, ex_C54_compact. *)
(** Whatever the tokenizer: what counts of a text is its tokens. *)
Theorem C54_same_tokens : forall (tk : tokenizer) E g yerr (a : api tk) M b bufs bs M' b' bufs' bs',
  at_start a -> content M (b :: bufs) = Some bs -> content M' (b' :: bufs') = Some bs' ->
  tokenize tk bs = tokenize tk bs' ->
  observe (document E g yerr M (b :: bufs) a) = observe (document E g yerr M' (b' :: bufs') a) /\
  result (document E g yerr M (b :: bufs) a) = result (document E g yerr M' (b' :: bufs') a).
Proof. exact (@c54_same_tokens). Qed.
Print Assumptions C54_same_tokens.

(** Two JSON texts of the same document, in any environment (exceptions of the callbacks
    and of the value types, failing allocations), supported or not. *)
Theorem C54_layout : forall E g yerr (a : api json_tk) M b bufs bs M' b' bufs' bs' j,
  at_start a -> content M (b :: bufs) = Some bs -> content M' (b' :: bufs') = Some bs' ->
  json_text bs j -> json_text bs' j ->
  observe (document E g yerr M (b :: bufs) a) = observe (document E g yerr M' (b' :: bufs') a) /\
  result (document E g yerr M (b :: bufs) a) = result (document E g yerr M' (b' :: bufs') a).
Proof. exact (@c54_layout). Qed.
Print Assumptions C54_layout.

(** White space around a text. *)
Theorem C54_white_space : forall E g yerr (a : api json_tk) M b bufs bs M' b' bufs' w w' j,
  at_start a -> content M (b :: bufs) = Some bs -> content M' (b' :: bufs') = Some (w ++ bs ++ w')%list ->
  json_text bs j -> ws w -> ws w' ->
  result (document E g yerr M (b :: bufs) a) = result (document E g yerr M' (b' :: bufs') a).
Proof. exact (@c54_white_space). Qed.
Print Assumptions C54_white_space.

(** Any text can be replaced by the compact one that [print] makes of its document. *)
Theorem C54_compact : forall E g yerr (a : api json_tk) M b bufs bs M' b' bufs' j,
  at_start a -> content M (b :: bufs) = Some bs -> content M' (b' :: bufs') = Some (print j) ->
  json_text bs j -> printable j = true ->
  result (document E g yerr M (b :: bufs) a) = result (document E g yerr M' (b' :: bufs') a).
Proof. exact (@c54_compact). Qed.
Print Assumptions C54_compact.

(* C55.  Concrete cases: Examples.v, ex_C55, ex_C55_same_documents. *)
(** A document that is accepted with one declaration is accepted with the members of
    its objects and unions declared in any other order: the same callbacks are invoked
    in the same order and told the same, and the parsers show the same. *)
Theorem C55_reordered : forall (tk tk' : tokenizer) g g' yerr yerr' R P P' s s' (a : api tk) (a' : api tk') M b bufs M' b' bufs' j l w,
  reordered R s s' -> rprog R P P' -> rlog R (past a) (past a') ->
  reads g yerr s a M b bufs j -> reads g' yerr' s' a' M' b' bufs' j -> supported j s = true ->
  doc g yerr P M b bufs a = Parsed l w ->
  exists l' w', doc g' yerr' P' M' b' bufs' a' = Parsed l' w' /\ rlog R l l' /\ rview R s s' w w'.
Proof. exact (@c55_reordered). Qed.
Print Assumptions C55_reordered.

Theorem C55_same_documents : forall (tk tk' : tokenizer) g g' yerr yerr' R P P' s s' (a : api tk) (a' : api tk') M b bufs M' b' bufs' j,
  reordered R s s' -> agreeable P -> agreeable P' ->
  reads g yerr s a M b bufs j -> reads g' yerr' s' a' M' b' bufs' j ->
  supported j s = true -> supported j s' = true ->
  ((exists l w, doc g yerr P M b bufs a = Parsed l w) <-> (exists l w, doc g' yerr' P' M' b' bufs' a' = Parsed l w)).
Proof. exact (@c55_same_documents). Qed.
Print Assumptions C55_same_documents.

(* C56.  Concrete cases: Examples.v, ex_C56_one_member, ex_C56_object, ex_C56_union, ex_C56_array, ex_C56_map. *)
(** An object with the members [ps] for an object parser does what its members do one
    after the other, each as a document of its own for a Parser of its declaration: the same
    callbacks with the same arguments, the same error; then the object ends. *)
Theorem C56_object : forall (tk tk' : tokenizer) g g' yerr yerr' P k ms ign cb (a : api tk) M b bufs ps l r,
  reads g yerr (SObj k ms ign cb) a M b bufs (JObj ps) -> supported (JObj ps) (SObj k ms ign cb) = true -> ps <> [] ->
  parts tk' g' yerr' P ms ign ps (map (fun mp => fresh (snd mp)) ms) (past a) l r ->
  doc g yerr P M b bufs a =
  match r with
  | inl e => Failed l e
  | inr ks => expected (end_object P k ms cb false ks l)
  end.
Proof. exact (@c56_object). Qed.
Print Assumptions C56_object.

(** An object with a single member. *)
Theorem C56_one_member : forall (tk tk' : tokenizer) g g' yerr yerr' P n m c cb (a : api tk) M b bufs (a1 : api tk') M1 b1 bufs1 j l w,
  reads g yerr (SObj OPlain [(m, c)] false cb) a M b bufs (JObj [(n, j)]) -> m_name m = SStr n -> 
  supported (JObj [(n, j)]) (SObj OPlain [(m, c)] false cb) = true -> embedded c j = None ->
  reads g' yerr' c a1 M1 b1 bufs1 j -> past a1 = past a -> doc g' yerr' P M1 b1 bufs1 a1 = Parsed l w -> v_set w = true ->
  doc g yerr P M b bufs a =
  let o := View true false None 0 [w] in
  match cb with
  | None => Parsed l o
  | Some f => let act := p_cb P f l (OSelf o) in let l' := (l ++ [Ev f (OSelf o)])%list in
      match a_res act with
      | CTrue => Parsed l' (fold_left (fun v rel => pop_at rel v) (a_pops act) o)
      | CFalse => Failed l' msg_cb_false
      | CThrow e => Failed l' (caught (XStd e))
      | CThrowOther => Failed l' (caught XOther)
      end
  end.
Proof. exact (@c56_one_member). Qed.
Print Assumptions C56_one_member.

Theorem C56_always : forall g yerr P ms ign ps, printable (JObj ps) = true -> supported (JObj ps) (SObj OPlain ms ign None) = true ->
  (forall m st t us ucb, In (m, SUni st t "" us ucb) ms -> forall um uc, In (um, uc) us -> is_object uc = true) ->
  forall ks l, exists l2 r, parts json_tk g yerr P ms ign ps ks l l2 r.
Proof. exact (@c56_always). Qed.
Print Assumptions C56_always.

(** A union that stands alone: the document [{type: x, ps}] does what the document [{ps}] does
    for a Parser of the alternative that [x] names; then the union ends. *)
Theorem C56_union : forall (tk tk' : tokenizer) g g' yerr yerr' P st tm us cb n um uc x (a : api tk) M b bufs ps o,
  reads g yerr (SUni st (ty_of x) tm us cb) a M b bufs (JObj ((tm, JSc x) :: ps)) ->
  supported (JObj ((tm, JSc x) :: ps)) (SUni st (ty_of x) tm us cb) = true -> tm <> "" ->
  index_of x us = Some n -> nth_error us n = Some (um, uc) -> is_object uc = true ->
  alone tk' g' yerr' P uc (JObj ps) (past a) o ->
  doc g yerr P M b bufs a =
  match o with
  | Parsed l w => expected (end_union P st cb n um w (map (fun mp => fresh (snd mp)) us) l)
  | _ => o
  end.
Proof. exact (@c56_union). Qed.
Print Assumptions C56_union.

(* C21.  Concrete cases: Examples.v, ex_C21, ex_C21_run, ex_C21_errors, ex_C21_C33_arrays. *)
(** Whatever the history, the next document has the outcome it has for a new
    Parser over a new parser object (callbacks are told the same history). *)
Theorem C21_like_new : forall (tk : tokenizer) g yerr P s (a : api tk) M b bufs j,
  reads g yerr s a M b bufs j -> supported j s = true ->
  doc g yerr P M b bufs a = doc g yerr P M b bufs (start tk g (mk s) (past a)).
Proof. exact (@c21_like_new). Qed.
Print Assumptions C21_like_new.

(** In particular, for declarations without arrays, after any parse() and finish()
    calls, failed or not, with any texts and callbacks ([E]). *)
Theorem C21_after_errors : forall (tk : tokenizer) E g yerr P s l (os : list op) (a : api tk) M b bufs bs j st,
  clean s = true -> do_ops E g yerr os (start tk g (mk s) l) = AOk a -> at_start a ->
  content M (b :: bufs) = Some bs -> tokenize tk bs = (toks j, Some st) -> supported j s = true ->
  doc g yerr P M b bufs a = doc g yerr P M b bufs (start tk g (mk s) (past a)).
Proof. exact (@c21_after_errors). Qed.
Print Assumptions C21_after_errors.

(** With arrays it is false: after "[a" was rejected, "[1]" is rejected; after "[{"
    was rejected, the bare scalar "1" is accepted. *)
Theorem C21_array_error_refuted : exists s, s = SArr true (SVal TyInt None) None /\
    (exists w, result (docs yes "[1]" (new s)) = Parsed [] w) /\
    (exists m, then_doc yes "[1]" (docs yes "[a" (new s)) = Failed [] m) /\
    (exists m, result (docs yes "1" (new s)) = Failed [] m) /\
    (exists w, then_doc yes "1" (docs yes "[{" (new s)) = Parsed [] w).
Proof. exact (@c21_array_error_refuted). Qed.
Print Assumptions C21_array_error_refuted.

(* C22.  Concrete cases: Examples.v, ex_C22. *)
(** [observe]: all parser objects, the dispatcher, the callback history, the
    tokenizer, success or sjparserError() - everything but the text rendered by
    the underlying parser. *)
Theorem C22_chunks : forall (tk : tokenizer) E g yerr M b bufs b1 bs (a : api tk),
  content M (b :: bufs) = Some bs -> M b1 = Some bs ->
  observe (parse_all E g yerr M (b :: bufs) a) = observe (parse E g yerr M b1 a) /\
  observe (document E g yerr M (b :: bufs) a) = observe (document E g yerr M [b1] a) /\
  result (document E g yerr M (b :: bufs) a) = result (document E g yerr M [b1] a).
Proof. exact (@c22_chunks). Qed.
Print Assumptions C22_chunks.

(** For every declaration and every history: no exception leaves the noexcept
    function that passes tokens on (which would be std::terminate). *)
Theorem C23_no_terminate : forall (tk : tokenizer) E g yerr p l (os : list op),
  do_ops E g yerr os (start tk g p l) <> ATerm tk.
Proof. exact (@c23_no_terminate). Qed.
Print Assumptions C23_no_terminate.

(** With live buffers and no Union as array element, every call returns or throws
    ParsingError. *)
Theorem C23_only_parsing_error : forall (tk : tokenizer) E g yerr s l (os : list op) (a : api tk) M b,
  no_arr_uni s = true -> do_ops E g yerr os (start tk g (mk s) l) = AOk a -> M b <> None ->
  match parse E g yerr M b a with
  | AOk _ | AThrow _ _ => True
  | _ => False
  end.
Proof. exact (@c23_only_parsing_error). Qed.
Print Assumptions C23_only_parsing_error.

(** The text: the what() of the std::exception, or "Unknown exception", raised by
    a token of this call; or nothing, if the underlying parser rejects the text. *)
Theorem C23_error_text : forall (tk : tokenizer) E g yerr p l (os : list op) (a : api tk) M b x a',
  do_ops E g yerr os (start tk g p l) = AOk a -> parse E g yerr M b a = AThrow x a' ->
  pe_sj x = "" \/
  exists ts m0 e m, run E g ts m0 = RThrow e m /\ a_m a' = m /\
    pe_sj x = match e with XStd msg => c_str msg | XOther => "Unknown exception" end.
Proof. exact (@c23_error_text). Qed.
Print Assumptions C23_error_text.

(* C24.  Concrete cases: Examples.v, ex_C24. *)
Theorem C24_finish_accepts : forall (tk : tokenizer) E g yerr M b bufs bs (a : api tk),
  at_start a -> content M (b :: bufs) = Some bs ->
  ((exists a', document E g yerr M (b :: bufs) a = AOk a') <->
   exists ts st m,
     (* the underlying parser accepts the text, reporting the tokens ts, *)
     tokenize tk bs = (ts, Some st) /\
     (* no token is rejected, *)
     run E g ts (mkS (m_root (a_m a)) [[]] (m_log (a_m a))) = ROk m /\
     (* and every parser has ended *)
     m_stack m = []).
Proof. exact (@c24_finish_accepts). Qed.
Print Assumptions C24_finish_accepts.

Theorem C24_finish_state : forall (tk : tokenizer) E g yerr M (a : api tk),
  ((exists a', Api.finish E g yerr M a = AOk a') <->
   exists st ts st' m, a_h a = HLive tk st /\ tk_fin tk st = (ts, Some st') /\
                       run E g ts (a_m a) = ROk m /\ m_stack m = []).
Proof. exact (@c24_finish_state). Qed.
Print Assumptions C24_finish_state.

(* C25.  Concrete cases: Examples.v, ex_C25, ex_C25_occurs. *)
(** After a failed parse(): any number of finish() calls fail with the same
    message, and neither change a parser nor call a callback. *)
Theorem C25_finish_after_error : forall (tk : tokenizer) E g yerr M b (a : api tk) x a' (Ms : list mem),
  parse E g yerr M b a = AThrow x a' ->
  (forall a2, do_ops E g yerr (map OpFinish Ms) a' = AOk a2 ->
     a_m a2 = a_m a' /\
     forall M2, (forall q, Api.finish E g yerr M2 a2 <> AOk q) /\
                (forall y q, Api.finish E g yerr M2 a2 = AThrow y q -> pe_sj y = pe_sj x /\ a_m q = a_m a')).
Proof. exact (@c25_finish_after_error). Qed.
Print Assumptions C25_finish_after_error.

(** Text after the one that made parse() fail has no effect. *)
Theorem C25_rest_ignored : forall (tk : tokenizer) E g yerr M b b' bs cs (a : api tk) x a',
  M b = Some bs -> M b' = Some (bs ++ cs)%list -> parse E g yerr M b a = AThrow x a' ->
  observe (parse E g yerr M b' a) = observe (parse E g yerr M b a).
Proof. exact (@c25_rest_ignored). Qed.
Print Assumptions C25_rest_ignored.

(** A rejected token is the last one: the tokens before it were accepted, and the
    machine is left as that token left it, whatever tokens follow in the text. *)
Theorem C25_tokens_stop : forall E g ts t rest m m1 e m2,
  run E g ts m = ROk m1 -> dispatch E g t m1 = RThrow e m2 ->
  run E g (ts ++ t :: rest) m = RThrow e m2.
Proof. exact (@c25_tokens_stop). Qed.
Print Assumptions C25_tokens_stop.

Theorem C26_document_error : forall (tk : tokenizer) E g yerr M b bufs bs (a : api tk) x a',
  at_start a -> content M (b :: bufs) = Some bs -> document E g yerr M (b :: bufs) a = AThrow x a' ->
  let r := run E g (fst (tokenize tk bs)) (mkS (m_root (a_m a)) [[]] (m_log (a_m a))) in
  match snd (tokenize tk bs) with
  | None => (exists m, r = ROk m /\ pe_sj x = "") \/ (exists e m, r = RThrow e m /\ pe_sj x = caught e)
  | Some _ => (exists m, r = ROk m /\ m_stack m <> [] /\ pe_sj x = msg_stack_left) \/
              (exists e m, r = RThrow e m /\ pe_sj x = caught e)
  end.
Proof. exact (@c26_document_error). Qed.
Print Assumptions C26_document_error.

(** The same for a parse() call anywhere in any history: the error comes from the
    tokens of the text given since the document began. *)
Theorem C26_parse_error : forall (tk : tokenizer) E g yerr (os : list op) p l M b bs (a : api tk) x a',
  do_ops E g yerr os (start tk g p l) = AOk a -> M b = Some bs -> parse E g yerr M b a = AThrow x a' ->
  exists st ts y,
    (if a_reset a then st = tk_init tk else a_h a = HLive tk st) /\ tokens tk bs st = (ts, y) /\
    let m0 := if a_reset a then mkS (m_root (a_m a)) [[]] (m_log (a_m a)) else a_m a in
    ((exists m, run E g ts m0 = ROk m /\ y = None /\ a_m a' = m /\ pe_sj x = "") \/
     (exists e m, run E g ts m0 = RThrow e m /\ a_m a' = m /\ pe_sj x = caught e)).
Proof. exact (@c26_parse_error). Qed.
Print Assumptions C26_parse_error.

(** what() is the underlying parser's text if there is no own one. *)
Theorem C26_what : forall x : perr,
  (pe_sj x = "" -> pe_what x = c_str (pe_yajl x)) /\ (pe_sj x <> "" -> pe_what x = c_str (pe_sj x)).
Proof. exact (@c26_what). Qed.
Print Assumptions C26_what.

(* C27.  Concrete cases: Examples.v, ex_C27. *)
Theorem C27_live_buffer_safe : forall (tk : tokenizer) E g yerr (os : list op) p l M (a : api tk),
  do_ops E g yerr os (start tk g p l) = AOk a ->
  (forall M0 b bytes, last_buffer os = Some (M0, b) -> M0 b = Some bytes ->
     exists now, M b = Some now /\ List.length bytes <= List.length now) ->
  Api.finish E g yerr M a <> AUB tk UBBuffer.
Proof. exact (@c27_live_buffer_safe). Qed.
Print Assumptions C27_live_buffer_safe.

Theorem C27_freed_buffer_refuted : exists s text a, parse (lift yes) 0 ye (mem_of [text]) 0 (new s) = AOk a /\
    Api.finish (lift yes) 0 ye (fun _ => None) a = AUB toy UBBuffer /\
    exists x q, Api.finish (lift yes) 0 ye (mem_of [text]) a = AThrow x q.
Proof. exact (@c27_freed_buffer_refuted). Qed.
Print Assumptions C27_freed_buffer_refuted.

(* C28.  Concrete cases: Examples.v, ex_C28. *)
(** [ids j s]: the callbacks of the entities of [j], in the order in which they
    end, none for nulls and empty objects (Order.v). *)
Theorem C28_callback_order : forall (tk : tokenizer) g yerr P s (a : api tk) M b bufs j,
  reads g yerr s a M b bufs j -> supported j s = true ->
  match doc g yerr P M b bufs a with
  | Parsed l _ => exists evs, l = (past a ++ evs)%list /\ map ev_id evs = ids j s
  | Failed l _ => exists evs rest, l = (past a ++ evs)%list /\ ids j s = (map ev_id evs ++ rest)%list
  | Broken => False
  end.
Proof. exact (@c28_callback_order). Qed.
Print Assumptions C28_callback_order.

(* C29.  Concrete cases: Examples.v, ex_C29. *)
(** In every parse() and finish() call, from any state: [calls l l' r] - history
    [l'] is [l] and further invocations, all of which returned true except maybe
    the last one, which ended with [r].  If [r] is not "true" then the call fails
    with the error that stands for [r] ([refusal]: for "false" it tells element
    callbacks from finish callbacks). *)
Theorem C29_false_stops : forall (tk : tokenizer) E g yerr (o : op) (a : api tk),
  match do_op E g yerr o a with
  | AOk a' => calls E (m_log (a_m a)) (m_log (a_m a')) CTrue
  | AThrow x a' =>
      exists r, calls E (m_log (a_m a)) (m_log (a_m a')) r /\
                (r = CTrue \/ exists e, cb_error (refusal (m_log (a_m a'))) r e /\ pe_sj x = caught e)
  | _ => True
  end.
Proof. exact (@c29_false_stops). Qed.
Print Assumptions C29_false_stops.

(* C30.  Concrete cases: Examples.v, ex_C30. *)
Theorem C30_constructs_iff : forall fmtd s,
  (exists p, build fmtd s = inr p) <->
  (forall c ms i j mi mj, part c s -> members_of c = Some ms -> i < j ->
     nth_error ms i = Some mi -> nth_error ms j = Some mj ->
     ~ same_name (m_name (fst mj)) (m_name (fst mi))).
Proof. exact (@c30_constructs_iff). Qed.
Print Assumptions C30_constructs_iff.

(** The message: in the first object or union in construction order that has equal
    names, the name of the last member whose name occurs again after it. *)
Theorem C30_message : forall fmtd s e, build fmtd s = inl e ->
  exists c ms i mi, part c s /\ members_of c = Some ms /\
    (forall mp, In mp ms -> exists p, build fmtd (snd mp) = inr p) /\
    nth_error ms i = Some mi /\ repeated ms i /\ (forall i', i < i' -> ~ repeated ms i') /\
    e = XStd ("Member " ++ fmt_scalar fmtd (m_name (fst mi)) ++ " appears more, than once").
Proof. exact (@c30_message). Qed.
Print Assumptions C30_message.

(* C32.  Concrete cases: Examples.v, ex_C32. *)
Theorem C32_stack_in_declaration : forall (tk : tokenizer) E g yerr s l (os : list op) (a : api tk),
  no_arr_uni s = true -> do_ops E g yerr os (start tk g (mk s) l) = AOk a ->
  schema_of (m_root (a_m a)) = s /\
  forall pi, In pi (m_stack (a_m a)) -> exists p, get pi (m_root (a_m a)) = Some p /\ disp_of p = Some g.
Proof. exact (@c32_stack_in_declaration). Qed.
Print Assumptions C32_stack_in_declaration.

(* C33.  Concrete cases: Examples.v, ex_C21_C33_arrays, ex_C33. *)
(** A parser object without arrays in any state at all, given to a new Parser:
    documents have the outcome they have for a new object. *)
Theorem C33_reattached : forall (tk : tokenizer) g yerr P p l M b bufs bs j st,
  clean (schema_of p) = true ->
  content M (b :: bufs) = Some bs -> tokenize tk bs = (toks j, Some st) -> supported j (schema_of p) = true ->
  doc g yerr P M b bufs (start tk g p l) = doc g yerr P M b bufs (start tk g (mk (schema_of p)) l).
Proof. exact (@c33_reattached). Qed.
Print Assumptions C33_reattached.

(** ... and no call uses a bad dispatcher pointer, whatever is parsed. *)
Theorem C33_reattached_safe : forall (tk : tokenizer) E g yerr p l (os : list op) u,
  clean (schema_of p) = true -> do_ops E g yerr os (start tk g p l) <> AUB tk (UBDisp u).
Proof. exact (@c33_reattached_safe). Qed.
Print Assumptions C33_reattached_safe.

(** With arrays it is false: the element parser keeps the old dispatcher. *)
Theorem C33_array_refuted : exists s a, docs yes "[[1]]" (new s) = AOk a /\
    document (lift yes) 1 ye (mem_of ["[~"]) [0] (start toy 1 (m_root (a_m a)) (m_log (a_m a))) =
    AUB toy (UBDisp DanglingDispatcher).
Proof. exact (@c33_array_refuted). Qed.
Print Assumptions C33_array_refuted.

(* C34.  Concrete cases: Examples.v, ex_C34. *)
(** [stable_end]: completing a completed text changes nothing in the underlying
    parser. *)
Theorem C34_finish_twice : forall (tk : tokenizer) E g yerr M M' (a a' : api tk),
  (forall st ts st', tk_fin tk st = (ts, Some st') -> tk_fin tk st' = ([], Some st')) ->
  Api.finish E g yerr M a = AOk a' -> Api.finish E g yerr M' a' = AOk a'.
Proof. exact (@c34_finish_twice). Qed.
Print Assumptions C34_finish_twice.

(** After finish() and after a failed parse() the next parse() begins with the
    root parser alone on the dispatcher's stack and a new tokenizer: what it does
    depends on the parser objects and the callback history only. *)
Theorem C34_next_document : forall (tk : tokenizer) E g yerr M b bs (a q a' : api tk),
  (exists M0, Api.finish E g yerr M0 a = AOk a' \/ exists e, Api.finish E g yerr M0 a = AThrow e a') \/
  (exists M0 b0 e, parse E g yerr M0 b0 a = AThrow e a') ->
  m_root (a_m q) = m_root (a_m a') -> m_log (a_m q) = m_log (a_m a') -> m_stack (a_m q) = [[]] ->
  a_h q = HLive tk (tk_init tk) -> a_err q = "" -> a_reset q = false ->
  M b = Some bs -> observe (parse E g yerr M b a') = observe (parse E g yerr M b q).
Proof. exact (@c34_next_document). Qed.
Print Assumptions C34_next_document.

(** An array with the elements [js] for an array parser does what its elements that are not null do,
    one after the other, each as a document of its own for a Parser of the declaration of the
    elements; then the array ends. *)
Theorem C56_array : forall (tk tk' : tokenizer) g g' yerr yerr' P st e cb (a : api tk) M b bufs js emp l r,
  reads g yerr (SArr st e cb) a M b bufs (JArr js) -> supported (JArr js) (SArr st e cb) = true ->
  elements tk' g' yerr' P st e js true [] (past a) emp l r ->
  doc g yerr P M b bufs a =
  match r with
  | inl x => Failed l x
  | inr vs => expected (end_array P st cb emp vs l)
  end.
Proof. exact (@c56_array). Qed.
Print Assumptions C56_array.

Theorem C56_array_always : forall g yerr P st e js, printable (JArr js) = true -> supported (JArr js) (SArr st e None) = true ->
  forall emp vs l, exists emp' l2 r, elements json_tk g yerr P st e js emp vs l emp' l2 r.
Proof. exact (@c56_array_always). Qed.
Print Assumptions C56_array_always.

(** A map with the entries [ps] for a map parser does what its values do one after the other,
    each as a document of its own for a Parser of the declaration of the values, with the
    element callback after each of them; then the map ends. *)
Theorem C56_map : forall (tk tk' : tokenizer) g g' yerr yerr' P st e ecb cb (a : api tk) M b bufs ps l r,
  reads g yerr (SMp st e ecb cb) a M b bufs (JObj ps) -> supported (JObj ps) (SMp st e ecb cb) = true -> 
  entries tk' g' yerr' P st e ecb ps [] (past a) l r ->
  doc g yerr P M b bufs a =
  match r with
  | inl x => Failed l x
  | inr vs => expected (end_map P st cb (match ps with [] => true | _ => false end) vs l)
  end.
Proof. exact (@c56_map). Qed.
Print Assumptions C56_map.

Theorem C56_map_always : forall g yerr P st e ecb ps, printable (JObj ps) = true -> supported (JObj ps) (SMp st e ecb None) = true ->
  (forall su t us ucb, e <> SUni su t "" us ucb) ->
  forall vs l, exists l2 r, entries json_tk g yerr P st e ecb ps vs l l2 r.
Proof. exact (@c56_map_always). Qed.
Print Assumptions C56_map_always.

(* C57.  Concrete cases: Examples.v, ex_C57_auto_object, ex_C57_nothing_to_keep, ex_C57_union, ex_C57_custom_object. *)
(** An SAutoObject does what an Object with the same members does: the same callbacks of the
    members, with the same arguments. Where the Object is set, the SAutoObject keeps the record
    of what the members' parsers of the Object show, and tells it to its callback; or some member
    has nothing to be kept, and it throws. *)
Theorem C57_auto_object : forall (tk tk' : tokenizer) g g' yerr yerr' P ms ign cb (a : api tk) (a' : api tk') M b bufs M' b' bufs' j,
  reads g yerr (SObj OPlain ms ign None) a M b bufs j -> reads g' yerr' (SObj OAuto ms ign cb) a' M' b' bufs' j ->
  past a' = past a -> supported j (SObj OPlain ms ign None) = true ->
  keeps_record (doc g yerr P M b bufs a) (doc g' yerr' P M' b' bufs' a')
    (fun w l o' => exists vs, record ms (v_kids w) vs /\
       o' = expected (invoke P cb (OVal (VTup vs)) msg_cb_false l
              (fun _ l => (l, inr (View true false (Some (VTup vs)) 0 (map popped (v_kids w)))))))
    (fun w => exists i m c x, nth_error ms i = Some (m, c) /\ nth_error (v_kids w) i = Some x /\ nothing_to_keep P m x).
Proof. exact (@c57_auto_object). Qed.
Print Assumptions C57_auto_object.

(** An SCustomObject is an Object whose callback returns the value. *)
Theorem C57_custom_object : forall (tk tk' : tokenizer) g g' yerr yerr' P ms ign cb (a : api tk) (a' : api tk') M b bufs M' b' bufs' j,
  reads g yerr (SObj OPlain ms ign None) a M b bufs j -> reads g' yerr' (SObj OCustom ms ign cb) a' M' b' bufs' j ->
  past a' = past a -> supported j (SObj OPlain ms ign None) = true ->
  match doc g yerr P M b bufs a with
  | Failed l e => doc g' yerr' P M' b' bufs' a' = Failed l e
  | Parsed l w =>
      if v_set w then
        let o v := View true false (Some v) 0 (v_kids w) in
        doc g' yerr' P M' b' bufs' a' =
        expected (invoke P cb (OCust (o (VCust None)) (VCust None)) msg_cb_false l (fun act l => (l, inr (pops act (o (VCust (a_new act)))))))
      else doc g' yerr' P M' b' bufs' a' = Parsed l w
  | _ => False
  end.
Proof. exact (@c57_custom_object). Qed.
Print Assumptions C57_custom_object.

(** An SUnion is a Union that keeps the value of the member that was selected. *)
Theorem C57_union : forall (tk tk' : tokenizer) g g' yerr yerr' P t tm ms cb (a : api tk) (a' : api tk') M b bufs M' b' bufs' j,
  reads g yerr (SUni false t tm ms None) a M b bufs j -> reads g' yerr' (SUni true t tm ms cb) a' M' b' bufs' j ->
  past a' = past a -> tm <> "" -> supported j (SUni false t tm ms None) = true ->
  keeps_record (doc g yerr P M b bufs a) (doc g' yerr' P M' b' bufs' a')
    (fun w l o' => exists m c x v, nth_error ms (v_cur w) = Some (m, c) /\ nth_error (v_kids w) (v_cur w) = Some x /\ field m x v /\
       o' = expected (invoke P cb (OVal (VVar (v_cur w) v)) msg_cb_false l
              (fun _ l => (l, inr (View true false (Some (VVar (v_cur w) v)) (v_cur w) (set_nth (v_cur w) (popped x) (v_kids w)))))))
    (fun w => exists m c x, nth_error ms (v_cur w) = Some (m, c) /\ nth_error (v_kids w) (v_cur w) = Some x /\ nothing_to_keep P m x).
Proof. exact (@c57_union). Qed.
Print Assumptions C57_union.

(* C31.  Concrete cases: Examples.v, ex_C31, ex_C31_parses, ex_C31_revived. *)
(** In every program that constructs, moves, move-assigns (whole parsers or the
    sub-parsers in place), uses and destroys parsers: the pointers inside every
    parser that is not moved from are right.  [here] is spelled out below. *)
Theorem C31_pointers : forall (uses : bool) (m : objects) id o l q,
  program uses m -> m id = Some (true, o) -> inside l o = Some q -> here (id, l) q.
Proof. exact (@c31_pointers). Qed.
Print Assumptions C31_pointers.

(** Looking up any name finds exactly the own member that the model's [lookup]
    finds - the sub-parser inside this object, or the one referred to. *)
Theorem C31_lookup : forall (uses : bool) (m : objects) id o l q tb ms nm,
  program uses m -> m id = Some (true, o) -> inside l o = Some q -> tables_of q = Some (tb, ms) ->
  find_key nm (t_map tb) =
  match lookup nm ms with
  | Some i =>
      match nth_error ms i with
      | Some (_, Own _) => Some (id, l ++ [i])%list
      | Some (_, Ref p) => Some p
      | None => None
      end
  | None => None
  end.
Proof. exact (@c31_lookup). Qed.
Print Assumptions C31_lookup.

(** No key of the table dangles: it points to the name of an own member, with
    unchanged text. *)
Theorem C31_keys : forall (uses : bool) (m : objects) id o l q tb ms b i txt p,
  program uses m -> m id = Some (true, o) -> inside l o = Some q -> tables_of q = Some (tb, ms) ->
  In (KView b i txt, p) (t_map tb) ->
  b = (id, l) /\ exists mm s, nth_error ms i = Some (mm, s) /\ m_name mm = txt.
Proof. exact (@c31_keys). Qed.
Print Assumptions C31_keys.

(** Union ids are the member indices. *)
Theorem C31_union_ids : forall (uses : bool) (m : objects) id o l b st v t tm cur tb ids ms ig cb i mm s,
  program uses m -> m id = Some (true, o) -> inside l o = Some (XUni b st v t tm cur tb ids ms ig cb) ->
  nth_error ms i = Some (mm, s) ->
  (forall j mm' s', nth_error ms j = Some (mm', s') -> slot_place (id, l ++ [j])%list s' = slot_place (id, l ++ [i])%list s -> j = i) ->
  find_id (slot_place (id, l ++ [i])%list s) ids = Some i.
Proof. exact (@c31_union_ids). Qed.
Print Assumptions C31_union_ids.

(** Members held by value are never confused. *)
Theorem C31_union_ids_by_value : forall (uses : bool) (m : objects) id o l b st v t tm cur tb ids ms ig cb i mm x,
  program uses m -> m id = Some (true, o) -> inside l o = Some (XUni b st v t tm cur tb ids ms ig cb) ->
  forallb (fun mp => no_ref_s (snd mp)) ms = true ->
  nth_error ms i = Some (mm, Own x) ->
  find_id (id, l ++ [i])%list ids = Some i.
Proof. exact (@c31_union_ids_by_value). Qed.
Print Assumptions C31_union_ids_by_value.

Theorem C31_alias_refuted : exists m tb ids ms b st v t tm cur ig cb,
    program false m /\ m 0 = Some (true, XUni b st v t tm cur tb ids ms ig cb) /\
    lookup (SInt 1) ms = Some 0 /\
    (exists p, find_key (SInt 1) (t_map tb) = Some p /\ find_id p ids = Some 1).
Proof. exact (@c31_alias_refuted). Qed.
Print Assumptions C31_alias_refuted.

(** An array hands its elements to its own element parser. *)
Theorem C31_array_element : forall (uses : bool) (m : objects) id o l b sd st vals ptr e cb,
  program uses m -> m id = Some (true, o) -> inside l o = Some (XArr b sd st vals ptr e cb) ->
  ptr = Some (match e with Own _ => (id, l ++ [0])%list | Ref p => p end).
Proof. exact (@c31_array_element). Qed.
Print Assumptions C31_array_element.

(** Constructors throw exactly for repeated names. *)
Theorem C31_constructor_throws : forall a fmtd ms, new_tables a 0 ms = None <-> dup_check fmtd ms <> None.
Proof. exact (@c31_constructor_throws). Qed.
Print Assumptions C31_constructor_throws.

(** Moving keeps everything that can be observed of a parser, and its declaration. *)
Theorem C31_move_keeps_state : forall rd a o,
  view_of (state rd (move a o)) = view_of (state rd o) /\
  schema_of (state rd (move a o)) = schema_of (state rd o).
Proof. exact (@c31_move_keeps_state). Qed.
Print Assumptions C31_move_keeps_state.

Theorem C31_assign_keeps_state : forall rd a d s y, assign a d s = Some y ->
  view_of (state rd y) = view_of (state rd s) /\ schema_of (state rd y) = schema_of (state rd s).
Proof. exact (@c31_assign_keeps_state). Qed.
Print Assumptions C31_assign_keeps_state.

(** A parser that was put together from rvalues with any moves and assignments, and
    not used yet, treats every supported document as its declaration says. *)
Theorem C31_moved_parses : forall (m : objects) id live o (tk : tokenizer) g yerr P l M b bufs bs j st s,
  program false m -> m id = Some (live, o) -> no_ref o = true -> s = schema_of (state nowhere o) ->
  ApiProofs.content M (b :: bufs) = Some bs -> tokenize tk bs = (toks j, Some st) -> supported j s = true ->
  doc g yerr P M b bufs (start tk g (state nowhere o) l) = expected (den P j s l).
Proof. exact (@c31_moved_parses). Qed.
Print Assumptions C31_moved_parses.

(* C35.  Concrete cases: Examples.v, ex_C35, ex_C35_run. *)
(** Any declaration, any parse() and finish() calls before ([os], with callbacks
    [E0]), any text in any chunks, any callbacks: if the root parser was not set and
    the next document fails, in parse() or in finish(), the root parser is not set -
    unless its value had been completely accepted, or its own finish callback failed. *)
Theorem C35_unset_after_failure : forall (tk : tokenizer) E0 E g yerr s l (os : list op) (a : api tk) M b bufs bs x a',
  do_ops E0 g yerr os (start tk g (mk s) l) = AOk a -> at_start a ->
  content M (b :: bufs) = Some bs -> root_set a = false ->
  document E g yerr M (b :: bufs) a = AThrow x a' ->
  root_set a' = false \/ root_ended a' \/ root_callback_failed E s x a'.
Proof. exact (@c35_unset_after_failure). Qed.
Print Assumptions C35_unset_after_failure.

(** The same if the root parser was set by an earlier document, provided the first
    token of the document is one that may begin a value of the root's declaration
    ([opener]: null, a scalar of the declared type, '[' or '{'), and that copying the
    value of a root Value does not run out of memory. *)
Theorem C35_opened : forall (tk : tokenizer) E0 E g yerr s l (os : list op) (a : api tk) M b bufs bs x a' t ts y,
  do_ops E0 g yerr os (start tk g (mk s) l) = AOk a -> at_start a ->
  content M (b :: bufs) = Some bs -> tokenize tk bs = (t :: ts, y) -> opener (kind_s s) t = true ->
  (forall ty, kind_s s = KVal ty -> forall c m, e_alloc E c m = None) ->
  document E g yerr M (b :: bufs) a = AThrow x a' ->
  root_set a' = false \/ root_ended a' \/ root_callback_failed E s x a'.
Proof. exact (@c35_opened). Qed.
Print Assumptions C35_opened.

(** Without that proviso it is false: after "1", the document "a" is rejected at its
    first token and the Value still shows 1. *)
Theorem C35_stale_value_refuted : exists s, s = SVal TyInt None /\
  match docs yes "1" (new s) with
  | AOk a =>
      match docs yes "a" a with
      | AThrow x a' => root_set a' = true /\ v_val (view_of (m_root (a_m a'))) = Some (VSc (SInt 1))
      | _ => False
      end
  | _ => False
  end.
Proof. exact (@c35_stale_value_refuted). Qed.
Print Assumptions C35_stale_value_refuted.

(** The two exceptions occur: "1!" (the rest is rejected by the JSON tokenizer) and a
    finish callback that returns false leave the parser set. *)
Theorem C35_exceptions_occur : match docs yes "1!" (new (SVal TyInt None)) with
  | AThrow x a' => root_set a' = true /\ root_ended a'
  | _ => False
  end /\
  match docs no "1" (new (SVal TyInt (Some 5))) with
  | AThrow x a' => root_set a' = true /\ ~ root_ended a' /\
      root_callback_failed (lift no) (SVal TyInt (Some 5)) x a'
  | _ => False
  end.
Proof. exact (@c35_exceptions_occur). Qed.
Print Assumptions C35_exceptions_occur.

(* C36.  Concrete cases: Examples.v, ex_C04_C36, ex_C36_doubles, ex_C36_three, ex_C36_numbers, ex_C36_strings, ex_C36_grammar_number, ex_C36_grammar_string, ex_C36_not_json. *)
(** With the JSON tokenizer of Json.v: the printed text of any document (int64_t,
    finite doubles, UTF-8 strings), cut into chunks in any way, after any history, has the specified outcome. *)
Theorem C36_text_outcome : forall g yerr P s (a : api json_tk) M b bufs j,
  history g yerr s a -> at_start a -> content M (b :: bufs) = Some (print j) ->
  printable j = true -> supported j s = true ->
  doc g yerr P M b bufs a = expected (den P j s (past a)).
Proof. exact (@c36_text_outcome). Qed.
Print Assumptions C36_text_outcome.

(** Conversely any text whatsoever: if parse() and finish() succeed, then the grammar of
    JSON ([json_text] in Grammar.v) gives exactly one document for it; if that is in the
    supported class, it matches the declaration and the parser objects show what the
    specification says. *)
Theorem C36_accepted_text : forall g yerr P s (a a' : api json_tk) M b bufs bs,
  history g yerr s a -> at_start a -> content M (b :: bufs) = Some bs ->
  document (lift P) g yerr M (b :: bufs) a = AOk a' ->
  exists j, json_text bs j /\
    (forall j', json_text bs j' -> j' = j) /\
    (supported j s = true ->
       verdict j s <> None /\ den P j s (past a) = (past a', inr (view_of (m_root (a_m a'))))).
Proof. exact (@c36_accepted_text). Qed.
Print Assumptions C36_accepted_text.

(** So text that is not JSON by the grammar is always reported, by parse() or by finish():
    with any declaration (Ignore, unions and everything else that consumes a value without
    looking at it included), any callbacks, in any chunks, whatever was parsed before. *)
Theorem C36_not_json_reported : forall E g yerr (a : api json_tk) M b bufs bs,
  at_start a -> content M (b :: bufs) = Some bs -> (forall j, ~ json_text bs j) ->
  forall a', document E g yerr M (b :: bufs) a <> AOk a'.
Proof. exact (@c36_not_json_reported). Qed.
Print Assumptions C36_not_json_reported.

(** C04 with callbacks: [bare s] is the declaration without its callbacks, [looks]: all
    of them return true, pop nothing and assign nothing.  Then the value round-trips
    as well, and only the callbacks' invocations are added to the history. *)
Theorem C04_round_trip_watched : forall (tk : tokenizer) g yerr P s (a : api tk) M b bufs v,
  own_types_stored P -> storable (bare s) -> looks P s -> has s v -> reads g yerr s a M b bufs (to_json s v) ->
  exists w, doc g yerr P M b bufs a = Parsed (past a ++ events P s (to_json s v))%list w /\
            v_set w = true /\ v_val w = Some v.
Proof. exact (@c04_round_trip_watched). Qed.
Print Assumptions C04_round_trip_watched.

(** Values survive being printed as JSON text and parsed. *)
Theorem C36_value_round_trip : forall g yerr P s (a : api json_tk) M b bufs v,
  history g yerr s a -> at_start a -> own_types_stored P -> storable (bare s) -> looks P s -> has s v -> printable (to_json s v) = true ->
  content M (b :: bufs) = Some (print (to_json s v)) ->
  exists w, doc g yerr P M b bufs a = Parsed (past a ++ events P s (to_json s v))%list w /\
            v_set w = true /\ v_val w = Some v.
Proof. exact (@c36_value_round_trip). Qed.
Print Assumptions C36_value_round_trip.

(** Every scalar has a text - for a finite double its exact decimal number - from which a
    Value of its own type gets back exactly this scalar, and which a Value of any other
    type rejects: no double is taken for an integer, or the other way round. *)
Theorem C36_scalar_text : forall g yerr P t (a : api json_tk) M b bufs x,
  history g yerr (SVal t None) a -> at_start a -> printable (JSc x) = true ->
  content M (b :: bufs) = Some (print (JSc x)) ->
  doc g yerr P M b bufs a =
  if vtype_eqb (ty_of x) t
  then Parsed (past a) (View true false (Some (VSc x)) 0 [])
  else Failed (past a) ("Unexpected token " ++ tok_kind (TSc x)).
Proof. exact (@c36_scalar_text). Qed.
Print Assumptions C36_scalar_text.

(** Not only printed texts: with any text that the grammar of JSON ([json_text] in
    Grammar.v: white space, escapes and surrogate pairs, fractions and exponents) gives for
    a document, cut into chunks in any way, after any history, the outcome is the specified
    one for this document. *)
Theorem C36_grammar_text : forall g yerr P s (a : api json_tk) M b bufs bs j,
  history g yerr s a -> at_start a -> content M (b :: bufs) = Some bs -> json_text bs j -> supported j s = true ->
  doc g yerr P M b bufs a = expected (den P j s (past a)).
Proof. exact (@c36_grammar_text). Qed.
Print Assumptions C36_grammar_text.

(* C37.  Concrete cases: Examples.v, ex_C37. *)
(** Whatever has been parsed before, and at any point inside the next text: the
    dispatcher's stack is never higher than the declaration is deep, however deep and
    long the text is. *)
Theorem C37_stack_bound : forall (tk : tokenizer) (E : env) g (yerr : list ascii -> string) s l os (a : api tk) m0 ts m,
  no_arr_uni s = true -> do_ops E g yerr os (start tk g (mk s) l) = AOk a ->
  (m0 = a_m a \/ m0 = dispatcher_reset (a_m a)) ->
  run E g ts m0 = ROk m ->
  List.length (m_stack m) <= levels s.
Proof. exact (@c37_stack_bound). Qed.
Print Assumptions C37_stack_bound.

(** ... and the calls made for one more token, whatever it is, are nested at most
    11 * levels + 7 deep. *)
Theorem C37_recursion_bound : forall (tk : tokenizer) (E : env) g (yerr : list ascii -> string) s l os (a : api tk) m0 ts m t d,
  no_arr_uni s = true -> do_ops E g yerr os (start tk g (mk s) l) = AOk a ->
  (m0 = a_m a \/ m0 = dispatcher_reset (a_m a)) ->
  run E g ts m0 = ROk m -> 11 * levels s + 7 <= d ->
  exec E g d (CDisp t) m <> RFuel.
Proof. exact (@c37_recursion_bound). Qed.
Print Assumptions C37_recursion_bound.

(** With arrays: after a history, any text and any callbacks, whether the document
    is accepted or rejected, as long as all arrays were closed at that point, the next
    document has the outcome it has for a new object. *)
Theorem C21_after_closed_arrays : forall (tk : tokenizer) E g yerr P s (a a' : api tk) M b bufs bs M' b' bufs' bs' j st,
  closable s = true -> history g yerr s a -> at_start a ->
  content M (b :: bufs) = Some bs -> in_order (fst (tokenize tk bs)) ->
  all_closed E g (fst (tokenize tk bs)) (dispatcher_reset (a_m a)) ->
  (document E g yerr M (b :: bufs) a = AOk a' \/ exists x, document E g yerr M (b :: bufs) a = AThrow x a') ->
  content M' (b' :: bufs') = Some bs' -> tokenize tk bs' = (toks j, Some st) -> supported j s = true ->
  doc g yerr P M' b' bufs' a' = doc g yerr P M' b' bufs' (start tk g (mk s) (past a')).
Proof. exact (@c21_after_closed_arrays). Qed.
Print Assumptions C21_after_closed_arrays.

(** The same with JSON text: whatever the text. *)
Theorem C21_after_closed_arrays_json : forall E g yerr P s (a a' : api json_tk) M b bufs bs M' b' bufs' j,
  closable s = true -> history g yerr s a -> at_start a ->
  content M (b :: bufs) = Some bs ->
  all_closed E g (fst (tokenize json_tk bs)) (dispatcher_reset (a_m a)) ->
  (document E g yerr M (b :: bufs) a = AOk a' \/ exists x, document E g yerr M (b :: bufs) a = AThrow x a') ->
  content M' (b' :: bufs') = Some (print j) -> printable j = true -> supported j s = true ->
  doc g yerr P M' b' bufs' a' = doc g yerr P M' b' bufs' (start json_tk g (mk s) (past a')).
Proof. exact (@c21_after_closed_arrays_json). Qed.
Print Assumptions C21_after_closed_arrays_json.

(** With arrays: a parser object after any history with another Parser, given to a
    new Parser: supported documents have the outcome they have for a new object. *)
Theorem C33_arrays_reattached : forall (tk : tokenizer) g0 g yerr P s (a : api tk) l M b bufs bs j st,
  history g0 yerr s a ->
  content M (b :: bufs) = Some bs -> tokenize tk bs = (toks j, Some st) -> supported j s = true ->
  doc g yerr P M b bufs (start tk g (m_root (a_m a)) l) = doc g yerr P M b bufs (start tk g (mk s) l).
Proof. exact (@c33_arrays_reattached). Qed.
Print Assumptions C33_arrays_reattached.

(* C38.  Concrete cases: Examples.v, ex_C38. *)
(** After any use, what the API shows of the parser has the shape of its declaration. *)
Theorem C38_shape : forall (tk : tokenizer) yerr s l g (a : api tk),
  compiles s -> used yerr s l g a -> shape s (view_of (m_root (a_m a))).
Proof. exact (@c38_shape). Qed.
Print Assumptions C38_shape.

(** The same for every parser inside it ([pi]: the way to it; [SIgn]: the part that
    skips unknown members), and at any moment between two tokens of the next text. *)
Theorem C38_at_any_moment : forall (tk : tokenizer) yerr s l g (a : api tk) E ts m0 m pi p,
  compiles s -> used yerr s l g a -> m0 = a_m a \/ m0 = dispatcher_reset (a_m a) ->
  (run E g ts m0 = ROk m \/ exists e, run E g ts m0 = RThrow e m) ->
  get pi (m_root m) = Some p ->
  exists q, (part q s \/ q = SIgn) /\ shape q (view_of p).
Proof. exact (@c38_at_any_moment). Qed.
Print Assumptions C38_at_any_moment.

(** Every callback is told values of the types it is declared with. *)
Theorem C38_callbacks : forall (tk : tokenizer) yerr s l g (a : api tk),
  compiles s -> used yerr s l g a -> exists l', past a = (l ++ l')%list /\ Forall (told s) l'.
Proof. exact (@c38_callbacks). Qed.
Print Assumptions C38_callbacks.

(** get<n>() of an object or a union: a value of the n-th member's declaration. *)
Theorem C38_member_value : forall (tk : tokenizer) yerr s l g (a : api tk) n v,
  compiles s -> used yerr s l g a -> get_nth n (m_root (a_m a)) = GVal v ->
  exists c, nth_error (member_decls s) n = Some c /\ typed c v.
Proof. exact (@c38_member_value). Qed.
Print Assumptions C38_member_value.

