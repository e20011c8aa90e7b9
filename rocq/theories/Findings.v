(** Where the library does not do what its user relies on: refutations, by running
    the model on a witness.  Each witness is a text (tokenised by [toy]: one byte
    is one token, see Outcome.v) and a declaration. *)

From Verif Require Import Spec Model Infra Total Safe Refine Main Api ApiProofs History ApiFacts Outcome Accept Access.
Local Open Scope string_scope.
Set Implicit Arguments.

Definition ye : list ascii -> string := fun _ => "json error".

(** parse() of each text and finish(), on a Parser with dispatcher 0. *)
Definition docs (P : prog) (text : string) (a : api toy) : ares toy :=
  document (lift P) 0 ye (mem_of [text]) [0] a.
Definition new (s : schema) : api toy := start toy 0 (mk s) [].

(** The Parser after a call that returned or threw ParsingError. *)
Definition after (r : ares toy) : option (api toy) :=
  match r with AOk a | AThrow _ a => Some a | _ => None end.

Definition then_doc (P : prog) (text : string) (r : ares toy) : outcome :=
  match after r with Some a => result (docs P text a) | None => Broken end.

Definition tint := SVal TyInt None.
Definition mem1 (k : string) (s : schema) : mspec * schema := (mkM (SStr k) false None, s).
Definition memo (k : string) (s : schema) : mspec * schema := (mkM (SStr k) true None, s).
Definition case1 (z : Z) (s : schema) : mspec * schema := (mkM (SInt z) false None, s).

(** ** B1: an error inside an array leaves it started (C21) *)
Definition arr_int := SArr true tint None.

(** New parser: "[1]" gives [1].  After the document "[a" was rejected, "[1]" is
    rejected as well. *)
Lemma b1_rejects :
  result (docs yes "[1]" (new arr_int)) = Parsed [] (View true false (Some (VVec [VSc (SInt 1)])) 0 []) /\
  result (docs yes "[a" (new arr_int)) = Failed [] "Unexpected token string" /\
  then_doc yes "[1]" (docs yes "[a" (new arr_int)) = Failed [] "Unexpected token array start".
Proof. vm_compute. auto. Qed.

(** After the document "[{" was rejected, the bare scalar "1" is accepted. *)
Lemma b1_accepts :
  result (docs yes "1" (new arr_int)) = Failed [] "Unexpected token integer" /\
  result (docs yes "[{" (new arr_int)) = Failed [] "Unexpected token map start" /\
  then_doc yes "1" (docs yes "[{" (new arr_int)) = Parsed [] (View false false None 0 []).
Proof. vm_compute. auto. Qed.

(** ** B2: a null inside an ignored value ends ignoring (C11) *)
Definition obj_ign := SObj OPlain [memo "A" (SVal TyInt (Some 7))] true None.

Lemma b2_ignored_null :
  den yes (JObj [("X", JArr [JNull])]) obj_ign [] = ([], inr (View true false None 0 [View false true None 0 []])) /\
  result (docs yes "{X[~]}" (new obj_ign)) = Failed [] "Unexpected token array end" /\
  result (docs yes "{X{Y1A5}}" (new obj_ign)) = Parsed [] (View true false None 0 [View false true None 0 []]) /\
  result (docs yes "{X{Y~A5}}" (new obj_ign)) = Failed [Ev 7 (OVal (VSc (SInt 5)))] "Parsers stack is empty".
Proof. vm_compute. auto. Qed.

(** ** B3: a null element after a compound element ends the array (C07) *)
Definition arr_arr := SArr true (SArr true tint None) None.

Lemma b3_null_element :
  result (docs yes "[~[1]]" (new arr_arr)) = Parsed [] (View true false (Some (VVec [VVec [VSc (SInt 1)]])) 0 []) /\
  result (docs yes "[[1]~]" (new arr_arr)) = Failed [] "Parsers stack is empty" /\
  result (docs yes "[~]" (new arr_arr)) = Parsed [] (View true true (Some (VVec [])) 0 []) /\
  then_doc yes "[~]" (docs yes "[[1]]" (new arr_arr)) = Failed [] "Parsers stack is empty".
Proof. vm_compute. auto. Qed.

(** ** B4: standalone unions take other documents than objects (C19, C20) *)
Definition ux := SUni false TyInt "T" [case1 1 (SObj OPlain [memo "X" (SVal TyInt (Some 3))] false None)] None.
Definition o_uw := SObj OPlain [memo "U" ux; memo "W" ux] false None.
Definition r_o := SObj OPlain [memo "O" o_uw] false None.

Definition b4_doc : json :=
  JObj [("O", JObj [("U", JSc (SInt 1)); ("X", JSc (SInt 2))]);
        ("W", JObj [("T", JObj [("T", JSc (SInt 1)); ("X", JSc (SInt 1))])])].

(** The declaration of "O" knows no member "X", and the root no member "W". *)
Lemma b4_accepts :
  tokenize toy (toy_text "{O{U1X2}W{T{T1X1}}}") = (toks b4_doc, Some None) /\
  verdict b4_doc r_o = None /\
  match docs yes "{O{U1X2}W{T{T1X1}}}" (new r_o) with AOk _ => True | _ => False end.
Proof. vm_compute. auto. Qed.

(** A null type: the rest of the union's object goes to the enclosing object. *)
Definition obj_u := SObj OPlain [memo "U" ux; memo "X" (SVal TyInt (Some 9))] false None.
Lemma b4_null_type :
  result (docs yes "{U{T1X5}}" (new obj_u)) =
    Parsed [Ev 3 (OVal (VSc (SInt 5)))]
      (View true false None 0
        [View true false None 0 [View true false None 0 [View true false (Some (VSc (SInt 5))) 0 []]];
         View false true None 0 []]) /\
  result (docs yes "{U{T~X5}}" (new obj_u)) =
    Failed [Ev 9 (OVal (VSc (SInt 5)))] "Parsers stack is empty".
Proof. vm_compute. auto. Qed.

(** A bare scalar for a union that stands alone. *)
Lemma b4_scalar :
  result (docs yes "[{T1X5}]" (new (SArr false ux None))) =
    Parsed [Ev 3 (OVal (VSc (SInt 5)))] (View true false None 0 []) /\
  then_doc yes "1" (docs yes "{T1X5}" (new ux)) = Failed [Ev 3 (OVal (VSc (SInt 5)))] msg_stack_left.
Proof. vm_compute. auto. Qed.

(** (Comparing whole results would normalise the tokenizer as well.) *)
Definition ub_of {tk} (r : ares tk) : option aub := match r with AUB _ u => Some u | _ => None end.
Lemma is_ub tk (r : ares tk) u : ub_of r = Some u -> r = AUB tk u.
Proof. destruct r; simpl; congruence. Qed.
Lemma is_ub_after tk (r : ares tk) f u (Q : api tk -> Prop) :
  match r with AOk a => ub_of (f a) = Some u /\ Q a | _ => False end ->
  match r with AOk a => f a = AUB tk u /\ Q a | _ => False end.
Proof. destruct r; auto. intros [H1 H2]. split; auto. apply is_ub. auto. Qed.

(** ** B5: Array of Union: a scalar element uses a null dispatcher (C02) *)
Lemma b5_null_dispatcher :
  docs yes "[1" (new (SArr false ux None)) = AUB toy (UBDisp NullDispatcher).
Proof. apply is_ub. vm_compute. reflexivity. Qed.

(** ** B6: finish() reads the buffer of the last parse() call (C27) *)
Definition freed : mem := fun _ => None.
Lemma b6_dangling_buffer :
  match parse (lift yes) 0 ye (mem_of ["[1"]) 0 (new arr_int) with
  | AOk a => Api.finish (lift yes) 0 ye freed a = AUB toy UBBuffer /\
             match Api.finish (lift yes) 0 ye (mem_of ["[1"]) a with AThrow _ _ => True | _ => False end
  | _ => False
  end.
Proof.
  apply (@is_ub_after toy _ (fun a => Api.finish (lift yes) 0 ye freed a)). vm_compute. auto.
Qed.

(** ** B7: get<n>() after pop<n>() returns the default value (C15) *)
Definition obj_def := SObj OPlain [(mkM (SStr "A") true (Some (VSc (SInt 4))), tint)] false None.
Lemma b7_get_after_pop :
  match docs yes "{A5}" (new obj_def) with
  | AOk a =>
      let p := m_root (a_m a) in
      get_nth 0 p = GVal (VSc (SInt 5)) /\ fst (pop_nth 0 p) = GVal (VSc (SInt 5)) /\
      get_nth 0 (snd (pop_nth 0 p)) = GVal (VSc (SInt 4))
  | _ => False
  end.
Proof. vm_compute. auto. Qed.

(** ** B8: a parser object used with a second Parser (C33) *)

(** The root object is attached to a new Parser (dispatcher 1); the first one is gone. *)
Definition reattach (a : api toy) : api toy := start toy 1 (m_root (a_m a)) (m_log (a_m a)).

Lemma b8_dangling_dispatcher :
  match docs yes "[[1]]" (new arr_arr) with
  | AOk a => document (lift yes) 1 ye (mem_of ["[~"]) [0] (reattach a) = AUB toy (UBDisp DanglingDispatcher)
  | _ => False
  end.
Proof.
  assert (H : match docs yes "[[1]]" (new arr_arr) with
    | AOk a => document (lift yes) 1 ye (mem_of ["[~"]) [0] (reattach a) = AUB toy (UBDisp DanglingDispatcher) /\ True
    | _ => False
    end).
  { apply (@is_ub_after toy _ (fun a => document (lift yes) 1 ye (mem_of ["[~"]) [0] (reattach a))). vm_compute. auto. }
  destruct (docs yes "[[1]]" (new arr_arr)); auto. apply H.
Qed.
