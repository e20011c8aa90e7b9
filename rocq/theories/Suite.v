(** The project's own tests (/repo/tests/src), run on the model.

    Each example below is one TEST of /repo/tests/src/<file>.cpp: the same declaration, the
    same calls and the same JSON text (with ' for the double quote), and what the TEST
    asserts.  They prove nothing about other inputs; they are evidence that the model is a
    model of this library, since the library passes them.

    Not transcribed: the underlying parser's error texts (parserError()), with their
    position in the text; addresses of parsers given by reference; the copies and
    moves of user-defined value types; type traits (member.cpp); a TokenParser
    subclass of the tests (yajl_parser.cpp).  A test that moves a parser object before
    using it is run on the object as declared (C31 is about moves). *)

From Verif Require Import Spec Model Infra Total Safe Refine Main Api ApiProofs Callbacks History Outcome Access Json.
From Coq Require Import SpecFloat.
Local Open Scope string_scope.
Set Implicit Arguments.

(** ** What a test does and what it sees *)

Inductive act :=
| Parse (text : string)
| Finish
| IsSet (p : path)                       (* isSet() of the parser at this place *)
| IsEmpty (p : path)
| Get (p : path)                         (* get() *)
| Pop (p : path)
| GetN (n : nat) (p : path)              (* get<n>() *)
| PopN (n : nat) (p : path)
| Member (p : path)                      (* currentMemberId() *)
| SetFinish (p : path) (c : cbid)        (* setFinishCallback() *)
| SetElement (p : path) (c : cbid)
| Told (c : cbid)                        (* what callback c has been told so far *)
| On (t : token).                        (* Dispatcher::on(), as the tests' TestParser does *)

Inductive seen :=
| Done                                   (* no exception *)
| Error (sjparser : string)              (* ParsingError: sjparserError() *)
| Is (b : bool)
| Val (v : value)
| Throws (m : string)                    (* std::runtime_error *)
| Num (n : nat)
| Args (l : list (list (option value)))
| Nothing_there | Crash.

(** What a callback gets: a value; or the values of the members of the parser it gets;
    or the key and the value of the element of a map. *)
Definition arg_of (o : obs) : list (option value) :=
  match o with
  | OVal v => [Some v]
  | OSelf w => map v_val (v_kids w)
  | OElem k w => [Some (VSc (SStr k)); v_val w]
  | OCust w v => map v_val (v_kids w)
  end.
Definition told (c : cbid) (l : list event) : list (list (option value)) :=
  flat_map (fun e => match e with Ev c' o => if Nat.eqb c c' then [arg_of o] else [] end) l.

Fixpoint js (s : string) : string :=
  match s with
  | EmptyString => EmptyString
  | String c r => String (if Ascii.eqb c "'"%char then ascii_of_N 34 else c) (js r)
  end.

Definition parser_at (p : path) (a : api json_tk) : option parser := get p (m_root (a_m a)).
Definition look (p : path) (a : api json_tk) (f : parser -> seen) : seen :=
  match parser_at p a with Some q => f q | None => Nothing_there end.
Definition got_seen (x : got) : seen :=
  match x with GVal v => Val v | GThrow m => Throws m | _ => Nothing_there end.

Section Play.
Variable E : env.
Definition no_text (_ : list ascii) : string := "".

Definition result_of (r : ares json_tk) (a : api json_tk) : seen * api json_tk :=
  match r with
  | AOk a' => (Done, a')
  | AThrow x a' => (Error (pe_sj x), a')
  | _ => (Crash, a)
  end.

(** The state: the Parser, and the text of the last parse() call (which stays alive). *)
Definition do_act (x : act) (t : string) (a : api json_tk) : seen * string * api json_tk :=
  match x with
  | Parse t' => let (o, a') := result_of (parse E 0 no_text (fun _ => Some (str (js t'))) 0 a) a in (o, t', a')
  | Finish => let (o, a') := result_of (Api.finish E 0 no_text (fun _ => Some (str (js t))) a) a in (o, t, a')
  | IsSet p => (look p a (fun q => Is (is_set q)), t, a)
  | IsEmpty p => (look p a (fun q => Is (is_empty q)), t, a)
  | Get p => (look p a (fun q => match get_value q with Some v => Val v | None => Throws e_unset end), t, a)
  | Pop p => (look p a (fun q => match pop_value q with Some (v, _) => Val v | None => Throws e_unset end), t, user_pop p a)
  | GetN n p => (look p a (fun q => got_seen (get_nth n q)), t, a)
  | PopN n p => (look p a (fun q => got_seen (fst (pop_nth n q))), t,
                 match parser_at p a with
                 | Some q => mkApi (mkS (put p (snd (pop_nth n q)) (m_root (a_m a))) (m_stack (a_m a)) (m_log (a_m a)))
                               (a_h a) (a_data a) (a_reset a) (a_err a)
                 | None => a
                 end)
  | Member p => (look p a (fun q => match q with
                                    | PUni b _ _ _ _ cur _ _ _ => if b_set b then Num cur else Throws e_unset
                                    | _ => Nothing_there
                                    end), t, a)
  | SetFinish p c => (Done, t, user_set_callback Callbacks.Finish p (Some c) a)
  | SetElement p c => (Done, t, user_set_callback Callbacks.Element p (Some c) a)
  | Told c => (Args (told c (m_log (a_m a))), t, a)
  | On tok => match dispatch E 0 tok (a_m a) with
              | ROk m => (Done, t, mkApi m (a_h a) (a_data a) (a_reset a) (a_err a))
              | RThrow (XStd s) m => (Throws s, t, mkApi m (a_h a) (a_data a) (a_reset a) (a_err a))
              | _ => (Crash, t, a)
              end
  end.

Fixpoint play (l : list act) (t : string) (a : api json_tk) : list seen :=
  match l with
  | [] => []
  | x :: r => let '(o, t', a') := do_act x t a in o :: play r t' a'
  end.
End Play.

(** A test: with these callbacks, a new Parser over the declaration answers so. *)
Definition test (E : env) (s : schema) (l : list (act * seen)) : Prop :=
  play E (map fst l) "" (start json_tk 0 (mk s) []) = map snd l.

Notation "x ==> y" := (pair x y) (at level 60, no associativity).
Notation ok t := (pair (Parse t) Done) (only parsing).
Notation fin := (pair Finish Done) (only parsing).
Notation isset p b := (pair (IsSet p) (Is b)) (only parsing).
Notation empty p b := (pair (IsEmpty p) (Is b)) (only parsing).

(** Callbacks: that agree; that return false; that pop something below their argument
    before; that throw. *)
Definition agree : env := mkEnv (fun _ _ _ _ => mkCO [] [] None CTrue) (fun _ => "?") (fun _ => None) (fun _ _ => None).
Definition refuse (c0 : cbid) : env :=
  mkEnv (fun c _ _ _ => mkCO [] [] None (if Nat.eqb c c0 then CFalse else CTrue)) (fun _ => "?") (fun _ => None) (fun _ _ => None).
Definition popping (c0 : cbid) (ps : list path) : env :=
  mkEnv (fun c _ _ _ => mkCO (if Nat.eqb c c0 then ps else []) [] None CTrue) (fun _ => "?") (fun _ => None) (fun _ _ => None).
Definition throwing (c0 : cbid) (r : cbres) : env :=
  mkEnv (fun c _ _ _ => mkCO [] [] None (if Nat.eqb c c0 then r else CTrue)) (fun _ => "?") (fun _ => None) (fun _ _ => None).

Ltac runs := vm_compute; reflexivity.

(** Declarations and values, as short as in C++. *)
Definition vbool := SVal TyBool None.
Definition vint := SVal TyInt None.
Definition vdbl := SVal TyDouble None.
Definition vstr := SVal TyStr None.
Definition B (b : bool) := VSc (SBool b).
Definition I (z : Z) := VSc (SInt z).
Definition S' (s : string) := VSc (SStr s).
Definition D (m : positive) (e : Z) := VSc (SDouble (S754_finite false m e)).
Definition b1_3 := D 5854679515581645 (-52).       (* 1.3 *)
Definition b10_5 := D 5910974510923776 (-49).      (* 10.5 *)
Definition b11_2 := D 6305039478318694 (-49).      (* 11.2 *)
Definition b11_5 := D 6473924464345088 (-49).      (* 11.5 *)
Definition must (n : string) (s : schema) : mspec * schema := (mkM (SStr n) false None, s).
Definition may (n : string) (s : schema) : mspec * schema := (mkM (SStr n) true None, s).
Definition dflt (n : string) (v : value) (s : schema) : mspec * schema := (mkM (SStr n) true (Some v), s).

(** ** value.cpp *)

Example Value_Boolean : test agree vbool
  [isset [] false; ok "true"; fin; isset [] true; empty [] false; Get [] ==> Val (B true); isset [] true;
   Pop [] ==> Val (B true); isset [] false].
Proof. runs. Qed.
Example Value_Integer : test agree vint
  [isset [] false; ok "10"; fin; isset [] true; empty [] false; Get [] ==> Val (I 10); isset [] true;
   Pop [] ==> Val (I 10); isset [] false].
Proof. runs. Qed.
Example Value_Double : test agree vdbl
  [isset [] false; ok "1.3"; fin; isset [] true; empty [] false; Get [] ==> Val b1_3; isset [] true;
   Pop [] ==> Val b1_3; isset [] false].
Proof. runs. Qed.
Example Value_String : test agree vstr
  [isset [] false; ok "'value'"; fin; isset [] true; empty [] false; Get [] ==> Val (S' "value"); isset [] true;
   Pop [] ==> Val (S' "value"); isset [] false].
Proof. runs. Qed.
Example Value_Null : test agree vbool [ok "null"; fin; isset [] false; empty [] true].
Proof. runs. Qed.
Example Value_Reset : test agree vbool
  [ok "true"; fin; isset [] true; empty [] false; Get [] ==> Val (B true); ok "null"; fin; isset [] false; empty [] true].
Proof. runs. Qed.
Example Value_UnexpectedBoolean : test agree vstr [Parse "true" ==> Error "Unexpected token boolean"; isset [] false].
Proof. runs. Qed.
Example Value_UnexpectedString : test agree vbool [Parse "'error'" ==> Error "Unexpected token string"; isset [] false].
Proof. runs. Qed.
Example Value_UnexpectedInteger : test agree vbool [ok "10"; Finish ==> Error "Unexpected token integer"; isset [] false].
Proof. runs. Qed.
Example Value_UnexpectedDouble : test agree vbool [ok "10.5"; Finish ==> Error "Unexpected token double"; isset [] false].
Proof. runs. Qed.
Example Value_UnexpectedMapStart : test agree vbool [Parse "{" ==> Error "Unexpected token map start"; isset [] false].
Proof. runs. Qed.
Example Value_UnexpectedMapKey : test agree vbool [On (TKey "test") ==> Throws "Unexpected token map key"].
Proof. runs. Qed.
Example Value_UnexpectedMapEnd : test agree vbool [On TMapEnd ==> Throws "Unexpected token map end"].
Proof. runs. Qed.
Example Value_UnexpectedArrayStart : test agree vbool [Parse "[" ==> Error "Unexpected token array start"; isset [] false].
Proof. runs. Qed.
Example Value_UnexpectedArrayEnd : test agree vbool [On TArrEnd ==> Throws "Unexpected token array end"].
Proof. runs. Qed.
Example Value_UnsetValue : test agree vbool [isset [] false; Get [] ==> Throws "Can't get value, parser is unset"].
Proof. runs. Qed.
Example Value_ValueWithCallback : test agree (SVal TyStr (Some 1))
  [ok "'value'"; fin; isset [] true; Get [] ==> Val (S' "value"); Told 1 ==> Args [[Some (S' "value")]]].
Proof. runs. Qed.
Example Value_ValueWithCallbackError : test (refuse 1) vstr
  [SetFinish [] 1 ==> Done; Parse "'value'" ==> Error "Callback returned false"].
Proof. runs. Qed.
Example Value_MoveAssignment : test agree vint [ok "10"; fin; isset [] true; empty [] false; Get [] ==> Val (I 10)].
Proof. runs. Qed.

(** ** array.cpp *)

Definition arr (t : vtype) := SArr false (SVal t (Some 1)) None.
Example Array_Empty : test agree (arr TyBool) [ok "[]"; fin; Told 1 ==> Args []; isset [] true; empty [] true].
Proof. runs. Qed.
Example Array_Null : test agree (arr TyBool) [ok "null"; fin; Told 1 ==> Args []; isset [] false; empty [] true].
Proof. runs. Qed.
Example Array_Reset : test agree (arr TyBool)
  [ok "[true]"; fin; Told 1 ==> Args [[Some (B true)]]; isset [] true; empty [] false;
   ok "null"; fin; isset [] false; empty [] true].
Proof. runs. Qed.
Example Array_ArrayOfBooleans : test agree (arr TyBool)
  [ok "[true, false]"; fin; Told 1 ==> Args [[Some (B true)]; [Some (B false)]]; isset [] true].
Proof. runs. Qed.
Example Array_ArrayOfIntegers : test agree (arr TyInt)
  [ok "[10, 11]"; fin; Told 1 ==> Args [[Some (I 10)]; [Some (I 11)]]; isset [] true].
Proof. runs. Qed.
Example Array_ArrayOfDoubles : test agree (arr TyDouble)
  [ok "[10.5, 11.2]"; fin; Told 1 ==> Args [[Some b10_5]; [Some b11_2]]; isset [] true].
Proof. runs. Qed.
Example Array_ArrayOfStrings : test agree (arr TyStr)
  [ok "['value1', 'value2']"; fin; Told 1 ==> Args [[Some (S' "value1")]; [Some (S' "value2")]]; isset [] true].
Proof. runs. Qed.
Example Array_ArrayWithNull : test agree (arr TyBool) [ok "[null]"; fin; Told 1 ==> Args []; isset [] true].
Proof. runs. Qed.
Example Array_ArrayWithNullAndValues : test agree (arr TyBool)
  [ok "[null, true, null, false]"; fin; Told 1 ==> Args [[Some (B true)]; [Some (B false)]]; isset [] true].
Proof. runs. Qed.
Example Array_UnexpectedBoolean : test agree (arr TyBool) [Parse "true" ==> Error "Unexpected token boolean"; isset [] false].
Proof. runs. Qed.
Example Array_UnexpectedInteger : test agree (arr TyInt) [ok "10"; Finish ==> Error "Unexpected token integer"; isset [] false].
Proof. runs. Qed.
Example Array_UnexpectedDouble : test agree (arr TyDouble) [ok "10.5"; Finish ==> Error "Unexpected token double"; isset [] false].
Proof. runs. Qed.
Example Array_UnexpectedString : test agree (arr TyStr) [Parse "'value'" ==> Error "Unexpected token string"; isset [] false].
Proof. runs. Qed.
Example Array_ArrayOfObjects : test (popping 1 [[Mem 0]; [Mem 1]])
  (SArr false (SObj OPlain [must "key" vstr; must "key2" vint] false (Some 1)) None)
  [ok "[{'key': 'value', 'key2': 10}, {'key': 'value2', 'key2': 20}]"; fin;
   Told 1 ==> Args [[Some (S' "value"); Some (I 10)]; [Some (S' "value2"); Some (I 20)]]].
Proof. runs. Qed.
Example Array_UnexpectedMapStart : test agree (SArr false vbool None) [Parse "{}" ==> Error "Unexpected token map start"; isset [] false].
Proof. runs. Qed.
Example Array_ArrayWithUnexpectedType : test agree (arr TyStr) [Parse "[true]" ==> Error "Unexpected token boolean"; isset [] false].
Proof. runs. Qed.
Example Array_ArrayWithElementCallbackError : test (refuse 1) (arr TyBool)
  [Parse "[true, false]" ==> Error "Callback returned false"; isset [] false].
Proof. runs. Qed.
Example Array_ArrayWithCallback : test agree (SArr false (SVal TyBool (Some 1)) (Some 2))
  [ok "[true, false]"; fin; Told 1 ==> Args [[Some (B true)]; [Some (B false)]]; Told 2 ==> Args [[]]; isset [] true].
Proof. runs. Qed.
Example Array_ArrayWithCallbackError : test (refuse 2) (arr TyBool)
  [SetFinish [] 2 ==> Done; Parse "[true, false]" ==> Error "Callback returned false"; isset [] true].
Proof. runs. Qed.
Example Array_ArrayOfArrays : test agree (SArr false (SArr false (SVal TyBool (Some 1)) (Some 2)) None)
  [ok "[[true, true], [false, false]]"; fin;
   Told 1 ==> Args [[Some (B true)]; [Some (B true)]; [Some (B false)]; [Some (B false)]]; Told 2 ==> Args [[]; []]].
Proof. runs. Qed.
Example Array_ArrayWithParserReference : test agree (SArr false (SArr true vint None) None)
  [ok "[[13, 15, 16]]"; fin; Get [Elem] ==> Val (VVec [I 13; I 15; I 16])].
Proof. runs. Qed.
Example Array_MoveAssignment : test agree (arr TyInt)
  [ok "[10, 11]"; fin; Told 1 ==> Args [[Some (I 10)]; [Some (I 11)]]; isset [] true].
Proof. runs. Qed.

(** ** sarray.cpp *)

Definition sarr (s : schema) := SArr true s None.
Example SArray_Empty : test agree (sarr vbool) [ok "[]"; fin; Get [] ==> Val (VVec []); isset [] true; empty [] true].
Proof. runs. Qed.
Example SArray_Null : test agree (sarr vbool) [ok "null"; fin; isset [] false; empty [] true].
Proof. runs. Qed.
Example SArray_Reset : test agree (sarr vbool)
  [ok "[true]"; fin; isset [] true; empty [] false; Get [] ==> Val (VVec [B true]); ok "null"; fin; isset [] false; empty [] true].
Proof. runs. Qed.
Example SArray_SArrayWithValues : test agree (sarr vbool)
  [ok "[true, false]"; fin; Get [] ==> Val (VVec [B true; B false]); isset [] true].
Proof. runs. Qed.
Example SArray_SArrayWithNull : test agree (sarr vbool) [ok "[null]"; fin; Get [] ==> Val (VVec []); isset [] true].
Proof. runs. Qed.
Example SArray_SArrayWithNullAndValues : test agree (sarr vbool)
  [ok "[null, true, null, false]"; fin; Get [] ==> Val (VVec [B true; B false]); isset [] true].
Proof. runs. Qed.
Example SArray_UnexpectedType : test agree (sarr vbool) [Parse "true" ==> Error "Unexpected token boolean"; isset [] false].
Proof. runs. Qed.
Example SArray_UnexpectedMapStart : test agree (sarr vbool) [Parse "{}" ==> Error "Unexpected token map start"; isset [] false].
Proof. runs. Qed.
Example SArray_SArrayWithUnexpectedType : test agree (sarr vstr) [Parse "[true]" ==> Error "Unexpected token boolean"; isset [] false].
Proof. runs. Qed.
Example SArray_SArrayWithElementCallbackError : test (refuse 1) (sarr (SVal TyBool (Some 1)))
  [Parse "[true, false]" ==> Error "Callback returned false"; isset [] false].
Proof. runs. Qed.
Example SArray_SArrayWithCallback : test agree (SArr true vbool (Some 1))
  [ok "[true, false]"; fin; Get [] ==> Val (VVec [B true; B false]);
   Told 1 ==> Args [[Some (VVec [B true; B false])]]; isset [] true].
Proof. runs. Qed.
Example SArray_SArrayWithCallbackError : test (refuse 1) (sarr vbool)
  [SetFinish [] 1 ==> Done; Parse "[true, false]" ==> Error "Callback returned false"; isset [] true].
Proof. runs. Qed.
Example SArray_SArrayOfSArrays : test agree (sarr (sarr vbool))
  [ok "[[true, true], [false, false]]"; fin; Get [] ==> Val (VVec [VVec [B true; B true]; VVec [B false; B false]])].
Proof. runs. Qed.
Example SArray_Move : test agree (sarr vstr)
  [ok "['value1', 'value2']"; fin; Pop [] ==> Val (VVec [S' "value1"; S' "value2"]); isset [] false].
Proof. runs. Qed.
Example SArray_SArrayWithParserReference : test agree (sarr (sarr vint))
  [ok "[[13, 15, 16]]"; fin; Get [] ==> Val (VVec [VVec [I 13; I 15; I 16]])].
Proof. runs. Qed.
Example SArray_MoveAssignment : test agree (sarr vint)
  [ok "[10, 11]"; fin; Get [] ==> Val (VVec [I 10; I 11]); isset [] true].
Proof. runs. Qed.

(** ** map.cpp *)

Definition mp (s : schema) := SMp false s None None.
Example Map_Empty : test agree (mp vbool) [ok "{}"; fin; isset [] true; empty [] true].
Proof. runs. Qed.
Example Map_EmptyWithCallbacks : test agree (mp vbool)
  [SetElement [] 1 ==> Done; SetFinish [] 2 ==> Done; ok "{}"; fin; isset [] true; Told 1 ==> Args []; Told 2 ==> Args [[]]].
Proof. runs. Qed.
Example Map_Null : test agree (mp vbool) [ok "null"; fin; isset [] false; empty [] true].
Proof. runs. Qed.
Example Map_Reset : test agree (mp vbool)
  [SetElement [] 1 ==> Done; ok "{'1': true}"; fin; Told 1 ==> Args [[Some (S' "1"); Some (B true)]];
   isset [] true; empty [] false; ok "null"; fin; isset [] false; empty [] true].
Proof. runs. Qed.
Example Map_SeveralKeys : test agree (mp vint)
  [SetElement [] 1 ==> Done; ok "{'1': 10, '2': 15}"; fin;
   Told 1 ==> Args [[Some (S' "1"); Some (I 10)]; [Some (S' "2"); Some (I 15)]]].
Proof. runs. Qed.
Example Map_InternalCallbackError : test (refuse 1) (mp (SVal TyInt (Some 1)))
  [Parse "{'1': 10}" ==> Error "Callback returned false"; isset [] false].
Proof. runs. Qed.
Example Map_KeyCallbackError : test (refuse 1) (SMp false vint (Some 1) None)
  [Parse "{'1': 10}" ==> Error "Element callback returned false"; isset [] false].
Proof. runs. Qed.
Example Map_FinishCallbackError : test (refuse 1) (mp vint)
  [SetFinish [] 1 ==> Done; Parse "{'1': 10}" ==> Error "Callback returned false"; isset [] true].
Proof. runs. Qed.
Definition nested := "{
  '1': {
    '1': [10, 20],
    '2': [30, 40]
  },
  '2': {
    '1': [11, 21],
    '2': [31, 41]
  }
}".
Example Map_MapOfMaps : test (popping 1 [[]]) (mp (mp (sarr vint)))
  [SetElement [Elem] 1 ==> Done; SetElement [] 2 ==> Done; ok nested; fin;
   Told 1 ==> Args [[Some (S' "1"); Some (VVec [I 10; I 20])]; [Some (S' "2"); Some (VVec [I 30; I 40])];
                    [Some (S' "1"); Some (VVec [I 11; I 21])]; [Some (S' "2"); Some (VVec [I 31; I 41])]];
   Told 2 ==> Args [[Some (S' "1"); None]; [Some (S' "2"); None]]].
Proof. runs. Qed.
Example Map_MapWithParserReference : test (popping 1 [[]]) (mp (sarr vint))
  [SetElement [] 1 ==> Done; ok "{
  '1': [10, 20],
  '2': [30, 40]
}"; fin; Told 1 ==> Args [[Some (S' "1"); Some (VVec [I 10; I 20])]; [Some (S' "2"); Some (VVec [I 30; I 40])]]].
Proof. runs. Qed.
Example Map_MoveAssignment : test agree (SMp false vint (Some 1) None)
  [ok "{'1': 10, '2': 15}"; fin; Told 1 ==> Args [[Some (S' "1"); Some (I 10)]; [Some (S' "2"); Some (I 15)]]].
Proof. runs. Qed.

(** ** smap.cpp *)

Definition smp (s : schema) := SMp true s None None.
Example SMap_Empty : test agree (smp vbool) [ok "{}"; fin; Get [] ==> Val (VMap []); isset [] true; empty [] true].
Proof. runs. Qed.
Example SMap_EmptyWithCallbacks : test agree (smp vbool)
  [SetElement [] 1 ==> Done; SetFinish [] 2 ==> Done; ok "{}"; fin; Get [] ==> Val (VMap []); isset [] true;
   Told 1 ==> Args []; Told 2 ==> Args [[]]].
Proof. runs. Qed.
Example SMap_Null : test agree (smp vbool) [ok "null"; fin; isset [] false; empty [] true].
Proof. runs. Qed.
Example SMap_Reset : test agree (smp vbool)
  [SetElement [] 1 ==> Done; ok "{'1': true}"; fin; Told 1 ==> Args [[Some (S' "1"); Some (B true)]];
   isset [] true; empty [] false; Get [] ==> Val (VMap [("1", B true)]); ok "null"; fin; isset [] false; empty [] true].
Proof. runs. Qed.
Example SMap_SeveralKeys : test agree (smp vint)
  [ok "{'1': 10, '2': 15}"; fin; Get [] ==> Val (VMap [("1", I 10); ("2", I 15)])].
Proof. runs. Qed.
Example SMap_KeyCallbackError : test (refuse 1) (SMp true vint (Some 1) None)
  [Parse "{'1': 10}" ==> Error "Element callback returned false"; isset [] false].
Proof. runs. Qed.
Example SMap_FinishCallbackError : test (refuse 1) (smp vint)
  [SetFinish [] 1 ==> Done; Parse "{'1': 10}" ==> Error "Callback returned false"; isset [] true].
Proof. runs. Qed.
Example SMap_SMapOfSMaps : test agree (smp (smp (sarr vint)))
  [ok nested; fin;
   Get [] ==> Val (VMap [("1", VMap [("1", VVec [I 10; I 20]); ("2", VVec [I 30; I 40])]);
                         ("2", VMap [("1", VVec [I 11; I 21]); ("2", VVec [I 31; I 41])])])].
Proof. runs. Qed.
Example SMap_SMapWithParserReference : test agree (smp (sarr vint))
  [ok "{
  '1': [10, 20],
  '2': [30, 40]
}"; fin; Get [] ==> Val (VMap [("1", VVec [I 10; I 20]); ("2", VVec [I 30; I 40])])].
Proof. runs. Qed.
Example SMap_MoveAssignment : test agree (smp vint)
  [ok "{'1': 10, '2': 15}"; fin; Get [] ==> Val (VMap [("1", I 10); ("2", I 15)])].
Proof. runs. Qed.

(** ** object.cpp *)

(** A callback that fills the SCustomObject's value with the values of the members. *)
Definition fill : env :=
  mkEnv (fun _ _ _ a => mkCO [] [] (match a with
                                    | ACust p _ => Some (VTup (flat_map (fun w => match v_val w with Some v => [v] | None => [] end) (v_kids (view_of p))))
                                    | _ => None
                                    end) CTrue) (fun _ => "?") (fun _ => None) (fun _ _ => None).

(** A value type whose assignment throws 10, once the callback has said so. *)
Definition throw_on_assign : env :=
  mkEnv (fun _ _ _ a => mkCO [] [] (match a with ACust _ _ => Some (VSc (SBool true)) | _ => None end) CTrue)
    (fun _ => "?")
    (fun v => match v with VCust (Some (VSc (SBool true))) => Some XOther | _ => None end) (fun _ _ => None).

Definition two (k : okind) (ign : bool) (cb : option cbid) := SObj k [must "bool" vbool; must "string" vstr] ign cb.
Definition two_text := "{'bool': true, 'string': 'value'}".
Definition error_text := "{'error': true, 'bool': true, 'string': 'value'}".
Example Object_Empty : test agree (two OPlain false None) [ok "{}"; fin; isset [] false; empty [] true].
Proof. runs. Qed.
Example Object_Null : test agree (two OPlain false None) [ok "null"; fin; isset [] false; empty [] true].
Proof. runs. Qed.
Example Object_Reset : test agree (two OPlain false None)
  [ok two_text; fin; GetN 0 [] ==> Val (B true); GetN 1 [] ==> Val (S' "value"); ok "null"; fin; isset [] false].
Proof. runs. Qed.
Example Object_UnexpectedMember : test agree (two OPlain false None)
  [Parse error_text ==> Error "Unexpected member error"; isset [] false].
Proof. runs. Qed.
Example Object_IgnoredUnexpectedMember : test agree (two OPlain true None)
  [ok error_text; fin; GetN 0 [] ==> Val (B true); GetN 1 [] ==> Val (S' "value")].
Proof. runs. Qed.
Example Object_MembersWithCallbackError : test (refuse 1)
  (SObj OPlain [must "bool" (SVal TyBool (Some 1)); must "string" (SVal TyStr (Some 2))] false None)
  [Parse two_text ==> Error "Callback returned false"; isset [] false].
Proof. runs. Qed.
Example Object_ObjectWithCallback : test agree (two OPlain false (Some 1))
  [ok two_text; fin; GetN 0 [] ==> Val (B true); GetN 1 [] ==> Val (S' "value");
   Told 1 ==> Args [[Some (B true); Some (S' "value")]]].
Proof. runs. Qed.
Example Object_ObjectWithOptionsAndCallback : test agree (two OPlain true (Some 1))
  [ok error_text; fin; GetN 0 [] ==> Val (B true); GetN 1 [] ==> Val (S' "value");
   Told 1 ==> Args [[Some (B true); Some (S' "value")]]].
Proof. runs. Qed.
Example Object_ObjectWithCallbackError : test (refuse 1) (two OPlain false (Some 1))
  [Parse two_text ==> Error "Callback returned false"; isset [] true].
Proof. runs. Qed.
Example Object_StdStringiMemberNames : test agree (SObj OPlain [must "string" vstr; must "integer" vint] false None)
  [ok "{'string': 'value', 'integer': 10}"; fin; GetN 0 [] ==> Val (S' "value"); GetN 1 [] ==> Val (I 10)].
Proof. runs. Qed.
Example Object_ObjectWithUnexpectedObject : test agree
  (SObj OPlain [must "string" vstr; must "object" (SObj OPlain [must "integer" vint] false None)] false None)
  [Parse "
{
  'string': 'value',
  'object': {
    'error': 1
  }
}" ==> Error "Unexpected member error"; isset [] false].
Proof. runs. Qed.
Definition inner1 := "
{
  'object': {
    'integer': 1,
    'string': 'in_value'
  }
}".
Definition inner2 := "
{
  'object': {
    'integer': 10,
    'string': 'in_value2'
  }
}".
Definition cust (l : list value) := VCust (Some (VTup l)).
Definition outer (k : okind) :=
  SObj k [must "object" (SObj OCustom [must "integer" vint; must "string" vstr] false None)] false None.
Example Object_Move : test fill (outer OPlain)
  [SetFinish [Mem 0] 1 ==> Done; ok inner1; fin; PopN 0 [] ==> Val (cust [I 1; S' "in_value"]); isset [Mem 0] false;
   ok inner2; fin; PopN 0 [] ==> Val (cust [I 10; S' "in_value2"]); isset [Mem 0] false].
Proof. runs. Qed.
Example Object_RepeatingMembers :
  ctor_exn (fun _ => "?") (SObj OPlain [must "member" vbool; must "member" vstr] false None) =
  Some (XStd "Member member appears more, than once").
Proof. runs. Qed.
Definition elts (k : okind) := SObj k [must "string" vstr; must "integer" vint; must "array" (sarr vstr)] false None.
Definition elts_text := "
{
  'string': 'value',
  'integer': 10,
  'array': [
    'elt1',
    'elt2',
    'elt3'
  ]
}".
Definition elts_val := VVec [S' "elt1"; S' "elt2"; S' "elt3"].
Example Object_ObjectWithParserReference : test agree (elts OPlain)
  [ok elts_text; fin; GetN 0 [] ==> Val (S' "value"); GetN 1 [] ==> Val (I 10); GetN 2 [] ==> Val elts_val].
Proof. runs. Qed.
Example Object_MissingMember : test agree (two OPlain false None)
  [Parse "{'bool': true}" ==> Error "Mandatory member string is not present"; isset [] false].
Proof. runs. Qed.
Example Object_OptionalMember : test agree (SObj OPlain [must "bool" vbool; may "string" vstr] false None)
  [ok "{'bool': true}"; fin; GetN 0 [] ==> Val (B true); isset [Mem 1] false].
Proof. runs. Qed.
Example Object_OptionalMemberWithDefaultValue : test agree
  (SObj OPlain [must "bool" vbool; dflt "string" (S' "value") vstr] false None)
  [ok "{'bool': true}"; fin; GetN 0 [] ==> Val (B true); isset [Mem 1] false; GetN 1 [] ==> Val (S' "value");
   PopN 1 [] ==> Val (S' "value")].
Proof. runs. Qed.
Example Object_MoveAssignment : test agree (two OPlain false None)
  [ok two_text; fin; GetN 0 [] ==> Val (B true); GetN 1 [] ==> Val (S' "value")].
Proof. runs. Qed.
Example Object_StructuredBindings : test agree
  (SObj OPlain [must "bool" vbool; must "string" vstr; must "object" (SObj OPlain [must "integer" vint] false None)] false None)
  [ok "
{
  'bool': true,
  'string': 'value',
  'object': {
    'integer': 10
  }
}"; fin; GetN 0 [] ==> Val (B true); GetN 1 [] ==> Val (S' "value"); GetN 0 [Mem 2] ==> Val (I 10)].
Proof. runs. Qed.

(** ** sautoobject.cpp *)

Definition two_val := VTup [B true; S' "value"].
Example SAutoObject_Empty : test agree (two OAuto false None) [ok "{}"; fin; isset [] false; empty [] true].
Proof. runs. Qed.
Example SAutoObject_Null : test agree (two OAuto false None) [ok "null"; fin; isset [] false; empty [] true].
Proof. runs. Qed.
Example SAutoObject_Reset : test agree (two OAuto false None)
  [ok two_text; fin; Get [] ==> Val two_val; ok "null"; fin; isset [] false].
Proof. runs. Qed.
Example SAutoObject_UnexpectedMember : test agree (two OAuto false None)
  [Parse error_text ==> Error "Unexpected member error"; isset [] false].
Proof. runs. Qed.
Example SAutoObject_IgnoredUnexpectedMember : test agree (two OAuto true None)
  [ok error_text; fin; Get [] ==> Val two_val].
Proof. runs. Qed.
Example SAutoObject_MembersWithCallbackError : test (refuse 1)
  (SObj OAuto [must "bool" (SVal TyBool (Some 1)); must "string" (SVal TyStr (Some 2))] false None)
  [Parse two_text ==> Error "Callback returned false"; isset [] false].
Proof. runs. Qed.
Example SAutoObject_SAutoObjectWithCallback : test agree (two OAuto false (Some 1))
  [ok two_text; fin; Told 1 ==> Args [[Some two_val]]].
Proof. runs. Qed.
Example SAutoObject_SAutoObjectWithCallbackError : test (refuse 1) (two OAuto false None)
  [SetFinish [] 1 ==> Done; Parse two_text ==> Error "Callback returned false"; isset [] true].
Proof. runs. Qed.
Example SAutoObject_Move : test fill (outer OAuto)
  [SetFinish [Mem 0] 1 ==> Done; ok inner1; fin; Pop [] ==> Val (VTup [cust [I 1; S' "in_value"]]); isset [] false;
   ok inner2; fin; Pop [] ==> Val (VTup [cust [I 10; S' "in_value2"]]); isset [] false].
Proof. runs. Qed.
Example SAutoObject_SAutoObjectWithParserReference : test agree (elts OAuto)
  [ok elts_text; fin; Get [] ==> Val (VTup [S' "value"; I 10; elts_val])].
Proof. runs. Qed.
Example SAutoObject_MissingMember : test agree (two OAuto false None)
  [Parse "{'bool': true}" ==> Error "Can not set value: Mandatory member string is not present"; isset [] false].
Proof. runs. Qed.
Example SAutoObject_UnknownExceptionInValueSetter : test throw_on_assign (outer OAuto)
  [SetFinish [Mem 0] 1 ==> Done; Parse inner1 ==> Error "Can not set value: unknown exception"; isset [] false].
Proof. runs. Qed.
Example SAutoObject_OptionalMember : test agree (SObj OAuto [must "bool" vbool; may "string" vstr] false None)
  [Parse "{'bool': true}" ==> Error "Can not set value: Optional member string does not have a default value"; isset [] false].
Proof. runs. Qed.
Example SAutoObject_OptionalMemberWithDefaultValue : test agree
  (SObj OAuto [must "bool" vbool; dflt "string" (S' "value") vstr] false None)
  [ok "{'bool': true}"; fin; Get [] ==> Val two_val; isset [Mem 1] false].
Proof. runs. Qed.
Example SAutoObject_MoveAssignment : test agree (two OAuto false None) [ok two_text; fin; Get [] ==> Val two_val].
Proof. runs. Qed.

(** ** scustomobject.cpp *)

Definition si (cb : option cbid) := SObj OCustom [must "string" vstr; must "integer" vint] false cb.
Example SCustomObject_Empty : test agree (si (Some 1)) [ok "{}"; fin; isset [] false; empty [] true].
Proof. runs. Qed.
Example SCustomObject_Null : test agree (si (Some 1)) [ok "null"; fin; isset [] false; empty [] true].
Proof. runs. Qed.
Example SCustomObject_Reset : test fill (two OCustom false (Some 1))
  [ok two_text; fin; Get [] ==> Val (cust [B true; S' "value"]); ok "null"; fin; isset [] false].
Proof. runs. Qed.
Example SCustomObject_UnexpectedMember : test agree (two OCustom false None)
  [Parse error_text ==> Error "Unexpected member error"; isset [] false].
Proof. runs. Qed.
Example SCustomObject_IgnoredUnexpectedMember : test fill (two OCustom true None)
  [SetFinish [] 1 ==> Done; ok error_text; fin; Get [] ==> Val (cust [B true; S' "value"])].
Proof. runs. Qed.
Example SCustomObject_MembersWithCallbackError : test (refuse 1)
  (SObj OCustom [must "bool" (SVal TyBool (Some 1)); must "string" (SVal TyStr (Some 2))] false None)
  [Parse two_text ==> Error "Callback returned false"].
Proof. runs. Qed.
Example SCustomObject_SCustomObjectWithCallbackError : test (refuse 1) (two OCustom false None)
  [SetFinish [] 1 ==> Done; Parse two_text ==> Error "Callback returned false"].
Proof. runs. Qed.
Example SCustomObject_PopValue : test fill (si None)
  [SetFinish [] 1 ==> Done; ok "{'string': 'value', 'integer': 10}"; fin; isset [] true;
   Pop [] ==> Val (cust [S' "value"; I 10]); isset [] false].
Proof. runs. Qed.
Example SCustomObject_Move : test fill (SObj OCustom [must "integer" vint; must "string" vstr] false None)
  [SetFinish [] 1 ==> Done; ok "
{
  'integer': 1,
  'string': 'in_value'
}"; fin; Pop [] ==> Val (cust [I 1; S' "in_value"]); isset [] false;
   ok "
{
  'integer': 10,
  'string': 'in_value2'
}"; fin; Pop [] ==> Val (cust [I 10; S' "in_value2"]); isset [] false].
Proof. runs. Qed.
Example SCustomObject_SCustomObjectWithParserReference : test fill (elts OCustom)
  [SetFinish [] 1 ==> Done; ok elts_text; fin; Get [] ==> Val (cust [S' "value"; I 10; elts_val])].
Proof. runs. Qed.
Example SCustomObject_MissingMember : test agree (two OCustom false None)
  [Parse "{'bool': true}" ==> Error "Mandatory member string is not present"; isset [] false].
Proof. runs. Qed.
Example SCustomObject_OptionalMember : test agree (SObj OCustom [must "bool" vbool; may "string" vstr] false None)
  [ok "{'bool': true}"; fin; GetN 0 [] ==> Val (B true); isset [Mem 1] false].
Proof. runs. Qed.
Example SCustomObject_OptionalMemberWithDefaultValue : test agree
  (SObj OCustom [must "bool" vbool; dflt "string" (S' "value") vstr] false None)
  [ok "{'bool': true}"; fin; GetN 0 [] ==> Val (B true); isset [Mem 1] false; GetN 1 [] ==> Val (S' "value")].
Proof. runs. Qed.
Example SCustomObject_MoveAssignmenteset : test fill (two OCustom false (Some 1))
  [ok two_text; fin; Get [] ==> Val (cust [B true; S' "value"])].
Proof. runs. Qed.

(** ** ignore.cpp *)

Example Ignore_Boolean : test agree SIgn [isset [] false; ok "true"; fin; isset [] true].
Proof. runs. Qed.
Example Ignore_Integer : test agree SIgn [isset [] false; ok "10"; fin; isset [] true].
Proof. runs. Qed.
Example Ignore_Double : test agree SIgn [isset [] false; ok "1.3"; fin; isset [] true].
Proof. runs. Qed.
Example Ignore_String : test agree SIgn [isset [] false; ok "'value'"; fin; isset [] true].
Proof. runs. Qed.
Example Ignore_Null : test agree SIgn [isset [] false; ok "null"; fin; isset [] false].
Proof. runs. Qed.
Example Ignore_Reset : test agree SIgn [ok "true"; fin; isset [] true; ok "null"; fin; isset [] false].
Proof. runs. Qed.
Example Ignore_Object : test agree SIgn [ok two_text; fin; isset [] true].
Proof. runs. Qed.
Example Ignore_Array : test agree SIgn [ok "['value1', 'value2']"; fin; isset [] true].
Proof. runs. Qed.
Example Ignore_UnexpectedMapKey : test agree SIgn [On (TKey "test") ==> Throws "Unexpected token map key"].
Proof. runs. Qed.
Example Ignore_UnexpectedMapEnd : test agree SIgn [On TMapEnd ==> Throws "Unexpected token map end"].
Proof. runs. Qed.
Example Ignore_UnexpectedArrayEnd : test agree SIgn [On TArrEnd ==> Throws "Unexpected token array end"].
Proof. runs. Qed.

(** ** yajl_parser.cpp, dispatcher.cpp, parser.cpp, parsing_error.cpp *)

Example YajlParser_OnUnknownException : test (throwing 1 CThrowOther) (SVal TyStr (Some 1))
  [Parse "'value'" ==> Error "Unknown exception"].
Proof. runs. Qed.
Definition pop_parser (m : mstate) : res := exec agree 0 (fuel_for m) CPop m.
Example Dispatcher_PopParserError : exists m,
  bind (pop_parser (attach 0 (mk vbool) [])) pop_parser = RThrow (XStd "Can not pop parser, parsers stack is empty") m.
Proof. eexists. runs. Qed.
Example Dispatcher_EmptyParserStack : exists m,
  bind (pop_parser (attach 0 (mk vbool) [])) (dispatch agree 0 (TSc (SBool true))) = RThrow (XStd "Parsers stack is empty") m.
Proof. eexists. runs. Qed.
Example Parser_ParserWithParserReference : test agree (sarr vint)
  [ok "[13, 15, 16]"; fin; Get [] ==> Val (VVec [I 13; I 15; I 16])].
Proof. runs. Qed.
Example ParsingError_SjparserError : pe_what (PErr "Test error" "") = "Test error".
Proof. runs. Qed.
Example ParsingError_ParserError : pe_what (PErr "" "Parser error") = "Parser error".
Proof. runs. Qed.
Example ParsingError_BothErrors : pe_what (PErr "Test error" "Parser error") = "Test error".
Proof. runs. Qed.

(** ** embedded_union.cpp and embedded_sunion.cpp *)

Definition n (z : Z) (s : schema) : mspec * schema := (mkM (SInt z) false None, s).
Definition n_opt (z : Z) (s : schema) : mspec * schema := (mkM (SInt z) true None, s).
Definition n_def (z : Z) (v : value) (s : schema) : mspec * schema := (mkM (SInt z) true (Some v), s).
Definition o_bool (k : okind) := SObj k [must "bool" vbool] false None.
Definition o_int (k : okind) := SObj k [must "int" vint] false None.
Definition o_bool_integer (k : okind) := SObj k [must "bool" vbool; must "integer" vint] false None.
Definition o_double_string (k : okind) := SObj k [must "double" vdbl; must "string" vstr] false None.
(** The union of the tests, with the members' kind of object; tm: its type member ("":
    embedded); in an object for the embedded one. *)
Definition uni (k : okind) (tm : string) (ms : list (mspec * schema)) := SUni (match k with OPlain => false | _ => true end) TyInt tm ms None.
Definition emb (k : okind) (ms : list (mspec * schema)) := SObj OPlain [must "type" (uni k "" ms)] false None.
Definition bool_int (k : okind) := [n 1 (o_bool k); n 2 (o_int k)].

Definition one_bool := "
{
  'type': 1,
  'bool': true
}".
Definition two_int := "
{
  'type': 2,
  'int': 100
}".
Definition one_both := "{'type': 1, 'bool': true, 'integer': 10}".
Definition two_both := "{'type': 2, 'double': 11.5, 'string': 'value'}".
Definition str_one := "
{
  'type': '1',
  'bool': true
}".
Definition str_two := "
{
  'type': '2',
  'int': 100
}".
Definition three := "
{
  'type': 3,
  'bool': true
}".
Definition one_error := "
{
  'type': 1,
  'error': true
}".
Definition one_bool_string := "
{
  'type': 1,
  'bool': true,
  'string': 'value'
}".

Example EmbeddedUnion_Empty : test agree (emb OPlain (bool_int OPlain))
  [Parse "{'type': 1}" ==> Error "Mandatory member #0 is not present"; isset [Mem 0] false].
Proof. runs. Qed.
Example EmbeddedUnion_OptionalMember : test agree (emb OPlain [n_opt 1 (o_bool OPlain); n 2 (o_int OPlain)])
  [ok "{'type': 1}"; fin; isset [Mem 0] true; empty [Mem 0] false; Member [Mem 0] ==> Num 0; isset [Mem 0; Mem 0] false].
Proof. runs. Qed.
Example EmbeddedUnion_OptionalMemberWithDefaultValue :
  test agree (emb OPlain [n_def 1 (VTup [B false]) (o_bool OAuto); n 2 (o_int OPlain)])
  [ok "{'type': 1}"; fin; isset [Mem 0] true; empty [Mem 0] false; Member [Mem 0] ==> Num 0; isset [Mem 0; Mem 0] false;
   GetN 0 [Mem 0] ==> Val (VTup [B false])].
Proof. runs. Qed.
Example EmbeddedUnion_Reset : test agree (emb OPlain [n 1 (o_bool_integer OPlain); n 2 (o_bool OPlain)])
  [ok one_both; fin; isset [Mem 0; Mem 0] true; empty [Mem 0] false; isset [Mem 0; Mem 1] false; Member [Mem 0] ==> Num 0;
   GetN 0 [Mem 0; Mem 0] ==> Val (B true); GetN 1 [Mem 0; Mem 0] ==> Val (I 10);
   ok "null"; fin; isset [Mem 0] false; empty [Mem 0] true].
Proof. runs. Qed.
Example EmbeddedUnion_AllValuesMembers : test agree (emb OPlain [n 1 (o_bool_integer OPlain); n 2 (o_double_string OPlain)])
  [ok one_both; fin; isset [Mem 0; Mem 0] true; isset [Mem 0; Mem 1] false; Member [Mem 0] ==> Num 0;
   GetN 0 [Mem 0; Mem 0] ==> Val (B true); GetN 1 [Mem 0; Mem 0] ==> Val (I 10);
   ok two_both; fin; isset [Mem 0; Mem 0] false; isset [Mem 0; Mem 1] true; Member [Mem 0] ==> Num 1;
   GetN 0 [Mem 0; Mem 1] ==> Val b11_5; GetN 1 [Mem 0; Mem 1] ==> Val (S' "value")].
Proof. runs. Qed.
Example EmbeddedUnion_StringType :
  test agree (SObj OPlain [must "type" (SUni false TyStr "" [must "1" (o_bool OPlain); must "2" (o_int OPlain)] None)] false None)
  [ok str_one; fin; isset [Mem 0; Mem 0] true; isset [Mem 0; Mem 1] false; Member [Mem 0] ==> Num 0;
   GetN 0 [Mem 0; Mem 0] ==> Val (B true);
   ok str_two; fin; isset [Mem 0; Mem 0] false; isset [Mem 0; Mem 1] true; Member [Mem 0] ==> Num 1;
   GetN 0 [Mem 0; Mem 1] ==> Val (I 100)].
Proof. runs. Qed.
Example EmbeddedUnion_IncorrectTypeType : test agree (emb OPlain (bool_int OPlain))
  [Parse str_one ==> Error "Unexpected token string"; isset [Mem 0] false].
Proof. runs. Qed.
Example EmbeddedUnion_IncorrectTypeValue : test agree (emb OPlain (bool_int OPlain))
  [Parse three ==> Error "Unexpected member 3"; isset [Mem 0] false].
Proof. runs. Qed.
Example EmbeddedUnion_MembersWithCallbackError :
  test (mkEnv (fun _ _ _ _ => mkCO [] [] None CFalse) (fun _ => "?") (fun _ => None) (fun _ _ => None)) (emb OPlain (bool_int OPlain))
  [SetFinish [Mem 0; Mem 0] 1 ==> Done; SetFinish [Mem 0; Mem 1] 2 ==> Done;
   Parse one_bool ==> Error "Callback returned false"; isset [Mem 0] false;
   Parse two_int ==> Error "Callback returned false"; isset [Mem 0] false].
Proof. runs. Qed.
Example EmbeddedUnion_UnionWithCallback : test agree (emb OPlain (bool_int OPlain))
  [SetFinish [Mem 0] 1 ==> Done; ok one_bool; fin; GetN 0 [Mem 0; Mem 0] ==> Val (B true); Told 1 ==> Args [[None; None]];
   ok two_int; fin; GetN 0 [Mem 0; Mem 1] ==> Val (I 100); Told 1 ==> Args [[None; None]; [None; None]]].
Proof. runs. Qed.
Example EmbeddedUnion_UnionWithCallbackError : test (refuse 1) (emb OPlain (bool_int OPlain))
  [SetFinish [Mem 0] 1 ==> Done; Parse one_bool ==> Error "Callback returned false"; isset [Mem 0] true].
Proof. runs. Qed.
Example EmbeddedUnion_UnionWithUnexpectedObject : test agree (emb OPlain (bool_int OPlain))
  [Parse one_error ==> Error "Unexpected member error"; isset [Mem 0] false].
Proof. runs. Qed.
Example EmbeddedUnion_UnionWithUnexpectedMapStart : test agree (uni OPlain "" (bool_int OPlain))
  [Parse one_bool ==> Error "Union with an empty type member can't parse this"; isset [] false].
Proof. runs. Qed.
Example EmbeddedUnion_UnionWithUnexpectedMapKey : test agree (uni OPlain "" (bool_int OPlain))
  [On (TKey "test") ==> Throws "Union with an empty type member can't parse this"; isset [] false].
Proof. runs. Qed.
Example EmbeddedUnion_EmbeddedUnionWithParserReference : test agree (emb OPlain [n 1 (two OAuto false None); n 2 (o_int OPlain)])
  [ok one_bool_string; fin; GetN 0 [Mem 0] ==> Val two_val; ok two_int; fin; GetN 0 [Mem 0; Mem 1] ==> Val (I 100)].
Proof. runs. Qed.

Example EmbeddedSUnion_Empty : test agree (emb OAuto (bool_int OAuto))
  [Parse "{'type': 1}" ==> Error "Can not set value: Mandatory member #0 is not present"; isset [Mem 0] false].
Proof. runs. Qed.
Example EmbeddedSUnion_OptionalMember : test agree (emb OAuto [n_opt 1 (o_bool OAuto); n 2 (o_int OAuto)])
  [Parse "{'type': 1}" ==> Error "Can not set value: Optional member #0 does not have a default value"; isset [Mem 0] false].
Proof. runs. Qed.
Example EmbeddedSUnion_OptionalMemberWithDefaultValue :
  test agree (emb OAuto [n_def 1 (VTup [B false]) (o_bool OAuto); n 2 (o_int OAuto)])
  [ok "{'type': 1}"; fin; isset [Mem 0] true; empty [Mem 0] false; GetN 0 [] ==> Val (VVar 0 (VTup [B false]))].
Proof. runs. Qed.
Example EmbeddedSUnion_Reset : test agree (emb OAuto [n 1 (o_bool_integer OAuto); n 2 (o_bool OAuto)])
  [ok one_both; fin; isset [Mem 0] true; empty [Mem 0] false; GetN 0 [] ==> Val (VVar 0 (VTup [B true; I 10]));
   ok "null"; fin; isset [] false; isset [Mem 0] false; empty [Mem 0] true].
Proof. runs. Qed.
Example EmbeddedSUnion_AllValuesMembers : test agree (emb OAuto [n 1 (o_bool_integer OAuto); n 2 (o_double_string OAuto)])
  [ok one_both; fin; GetN 0 [] ==> Val (VVar 0 (VTup [B true; I 10]));
   ok two_both; fin; GetN 0 [] ==> Val (VVar 1 (VTup [b11_5; S' "value"]))].
Proof. runs. Qed.
Example EmbeddedSUnion_StringType :
  test agree (SObj OPlain [must "type" (SUni true TyStr "" [must "1" (o_bool OAuto); must "2" (o_int OAuto)] None)] false None)
  [ok str_one; fin; GetN 0 [] ==> Val (VVar 0 (VTup [B true])); ok str_two; fin; GetN 0 [] ==> Val (VVar 1 (VTup [I 100]))].
Proof. runs. Qed.
Example EmbeddedSUnion_IncorrectTypeType : test agree (emb OAuto (bool_int OAuto))
  [Parse str_one ==> Error "Unexpected token string"; isset [Mem 0] false].
Proof. runs. Qed.
Example EmbeddedSUnion_IncorrectTypeValue : test agree (emb OAuto (bool_int OAuto))
  [Parse three ==> Error "Unexpected member 3"; isset [Mem 0] false].
Proof. runs. Qed.
Definition cb_members := [n 1 (SObj OAuto [must "bool" (SVal TyBool (Some 1))] false None);
                          n 2 (SObj OAuto [must "int" (SVal TyInt (Some 2))] false None)].
Example EmbeddedSUnion_MembersWithCallbackError :
  test (mkEnv (fun _ _ _ _ => mkCO [] [] None CFalse) (fun _ => "?") (fun _ => None) (fun _ _ => None)) (emb OAuto cb_members)
  [Parse one_bool ==> Error "Callback returned false"; isset [Mem 0] false;
   Parse two_int ==> Error "Callback returned false"; isset [Mem 0] false].
Proof. runs. Qed.
Example EmbeddedSUnion_SUnionWithCallback : test agree (emb OAuto (bool_int OAuto))
  [SetFinish [Mem 0] 1 ==> Done; ok one_bool; fin; GetN 0 [] ==> Val (VVar 0 (VTup [B true]));
   Told 1 ==> Args [[Some (VVar 0 (VTup [B true]))]];
   ok two_int; fin; GetN 0 [] ==> Val (VVar 1 (VTup [I 100]));
   Told 1 ==> Args [[Some (VVar 0 (VTup [B true]))]; [Some (VVar 1 (VTup [I 100]))]]].
Proof. runs. Qed.
Example EmbeddedSUnion_SUnionWithCallbackError : test (refuse 1) (emb OAuto (bool_int OAuto))
  [SetFinish [Mem 0] 1 ==> Done; Parse one_bool ==> Error "Callback returned false"; isset [Mem 0] true].
Proof. runs. Qed.
Example EmbeddedSUnion_SUnionWithUnexpectedObject : test agree (emb OAuto (bool_int OAuto))
  [Parse one_error ==> Error "Unexpected member error"; isset [Mem 0] false].
Proof. runs. Qed.
Example EmbeddedSUnion_SUnionWithUnexpectedMapStart : test agree (uni OAuto "" (bool_int OAuto))
  [Parse one_bool ==> Error "Union with an empty type member can't parse this"; isset [] false].
Proof. runs. Qed.
Example EmbeddedSUnion_SUnionWithUnexpectedMapKey : test agree (uni OAuto "" (bool_int OAuto))
  [On (TKey "test") ==> Throws "Union with an empty type member can't parse this"; isset [] false].
Proof. runs. Qed.
Example EmbeddedSUnion_EmbeddedSUnionWithParserReference : test agree (emb OAuto [n 1 (two OAuto false None); n 2 (o_int OAuto)])
  [ok one_bool_string; fin; GetN 0 [] ==> Val (VVar 0 two_val); ok two_int; fin; GetN 0 [] ==> Val (VVar 1 (VTup [I 100]))].
Proof. runs. Qed.

(** ** standalone_union.cpp and standalone_sunion.cpp *)

Definition alone (k : okind) := uni k "type".
Example StandaloneUnion_Empty : test agree (alone OPlain (bool_int OPlain)) [ok "{}"; fin; isset [] false; empty [] true].
Proof. runs. Qed.
Example StandaloneUnion_EmptyWithType : test agree (alone OPlain (bool_int OPlain))
  [Parse "{'type': 1}" ==> Error "Mandatory member #0 is not present"; isset [] false].
Proof. runs. Qed.
Example StandaloneUnion_OptionalMember : test agree (alone OPlain [n_opt 1 (o_bool OPlain); n 2 (o_int OPlain)])
  [ok "{'type': 1}"; fin; isset [] true; empty [] false; Member [] ==> Num 0; isset [Mem 0] false].
Proof. runs. Qed.
Example StandaloneUnion_OptionalMemberWithDefaultValue :
  test agree (alone OPlain [n_def 1 (VTup [B false]) (o_bool OAuto); n 2 (o_int OPlain)])
  [ok "{'type': 1}"; fin; isset [] true; empty [] false; Member [] ==> Num 0; isset [Mem 0] false;
   GetN 0 [] ==> Val (VTup [B false])].
Proof. runs. Qed.
Example StandaloneUnion_Null : test agree (alone OPlain (bool_int OPlain)) [ok "null"; fin; isset [] false; empty [] true].
Proof. runs. Qed.
Example StandaloneUnion_Reset : test agree (alone OPlain [n 1 (o_bool_integer OPlain); n 2 (o_bool OPlain)])
  [ok one_both; fin; isset [Mem 0] true; empty [] false; isset [Mem 1] false; Member [] ==> Num 0;
   GetN 0 [Mem 0] ==> Val (B true); GetN 1 [Mem 0] ==> Val (I 10); ok "null"; fin; isset [] false; empty [] true].
Proof. runs. Qed.
Example StandaloneUnion_AllValuesMembers : test agree (alone OPlain [n 1 (o_bool_integer OPlain); n 2 (o_double_string OPlain)])
  [ok one_both; fin; isset [Mem 0] true; isset [Mem 1] false; Member [] ==> Num 0;
   GetN 0 [Mem 0] ==> Val (B true); GetN 1 [Mem 0] ==> Val (I 10);
   ok two_both; fin; isset [Mem 0] false; isset [Mem 1] true; Member [] ==> Num 1;
   GetN 0 [Mem 1] ==> Val b11_5; GetN 1 [Mem 1] ==> Val (S' "value")].
Proof. runs. Qed.
Example StandaloneUnion_StringType :
  test agree (SUni false TyStr "type" [must "1" (o_bool OPlain); must "2" (o_int OPlain)] None)
  [ok str_one; fin; isset [Mem 0] true; isset [Mem 1] false; Member [] ==> Num 0; GetN 0 [Mem 0] ==> Val (B true);
   ok str_two; fin; isset [Mem 0] false; isset [Mem 1] true; Member [] ==> Num 1; GetN 0 [Mem 1] ==> Val (I 100)].
Proof. runs. Qed.
Example StandaloneUnion_IncorrectTypeType : test agree (alone OPlain (bool_int OPlain))
  [Parse str_one ==> Error "Unexpected token string"; isset [] false].
Proof. runs. Qed.
Example StandaloneUnion_IncorrectTypeValue : test agree (alone OPlain (bool_int OPlain))
  [Parse three ==> Error "Unexpected member 3"; isset [] false].
Proof. runs. Qed.
Definition error_first := "
{
  'error': 1,
  'bool': true
}".
Example StandaloneUnion_IncorrectTypeMember : test agree (alone OPlain (bool_int OPlain))
  [Parse error_first ==> Error "Unexpected member error"; isset [] false].
Proof. runs. Qed.
Example StandaloneUnion_MembersWithCallbackError :
  test (mkEnv (fun _ _ _ _ => mkCO [] [] None CFalse) (fun _ => "?") (fun _ => None) (fun _ _ => None)) (alone OPlain (bool_int OPlain))
  [SetFinish [Mem 0] 1 ==> Done; SetFinish [Mem 1] 2 ==> Done;
   Parse one_bool ==> Error "Callback returned false"; isset [] false;
   Parse two_int ==> Error "Callback returned false"; isset [] false].
Proof. runs. Qed.
Example StandaloneUnion_UnionWithCallback : test agree (alone OPlain (bool_int OPlain))
  [SetFinish [] 1 ==> Done; ok one_bool; fin; GetN 0 [Mem 0] ==> Val (B true); Told 1 ==> Args [[None; None]];
   ok two_int; fin; GetN 0 [Mem 1] ==> Val (I 100); Told 1 ==> Args [[None; None]; [None; None]]].
Proof. runs. Qed.
Example StandaloneUnion_UnionWithCallbackError : test (refuse 1) (alone OPlain (bool_int OPlain))
  [SetFinish [] 1 ==> Done; Parse one_bool ==> Error "Callback returned false"; isset [] true].
Proof. runs. Qed.
Example StandaloneUnion_UnionWithUnexpectedObject : test agree (alone OPlain (bool_int OPlain))
  [Parse one_error ==> Error "Unexpected member error"; isset [] false].
Proof. runs. Qed.
Example StandaloneUnion_RepeatingMembers :
  ctor_exn (fun _ => "?") (alone OPlain [n 1 (o_bool OPlain); n 1 (o_int OPlain)]) =
  Some (XStd "Member 1 appears more, than once").
Proof. runs. Qed.
Example StandaloneUnion_StandaloneUnionWithParserReference : test agree (alone OPlain [n 1 (two OAuto false None); n 2 (o_int OPlain)])
  [ok one_bool_string; fin; GetN 0 [] ==> Val two_val; ok two_int; fin; GetN 0 [Mem 1] ==> Val (I 100)].
Proof. runs. Qed.
Example StandaloneUnion_MoveAssignment : test agree (alone OPlain [n 1 (o_bool_integer OPlain); n 2 (o_double_string OPlain)])
  [ok one_both; fin; isset [Mem 0] true; isset [Mem 1] false; Member [] ==> Num 0;
   GetN 0 [Mem 0] ==> Val (B true); GetN 1 [Mem 0] ==> Val (I 10)].
Proof. runs. Qed.

Example StandaloneSUnion_Empty : test agree (alone OAuto (bool_int OAuto)) [ok "{}"; fin; isset [] false; empty [] true].
Proof. runs. Qed.
Example StandaloneSUnion_EmptyWithType : test agree (alone OAuto (bool_int OAuto))
  [Parse "{'type': 1}" ==> Error "Can not set value: Mandatory member #0 is not present"; isset [] false].
Proof. runs. Qed.
Example StandaloneSUnion_UnknownExceptionInValueSetter : test throw_on_assign (alone OAuto [n 1 (o_bool OCustom); n 2 (o_int OAuto)])
  [SetFinish [Mem 0] 1 ==> Done; Parse "{'type': 1, 'bool': true}" ==> Error "Can not set value: unknown exception"; isset [] false].
Proof. runs. Qed.
Example StandaloneSUnion_OptionalMember : test agree (alone OAuto [n_opt 1 (o_bool OAuto); n 2 (o_int OAuto)])
  [Parse "{'type': 1}" ==> Error "Can not set value: Optional member #0 does not have a default value"; isset [] false].
Proof. runs. Qed.
Example StandaloneSUnion_OptionalMemberWithDefaultValue :
  test agree (alone OAuto [n_def 1 (VTup [B false]) (o_bool OAuto); n 2 (o_int OAuto)])
  [ok "{'type': 1}"; fin; Get [] ==> Val (VVar 0 (VTup [B false]))].
Proof. runs. Qed.
Example StandaloneSUnion_Null : test agree (alone OAuto (bool_int OAuto)) [ok "null"; fin; isset [] false; empty [] true].
Proof. runs. Qed.
Example StandaloneSUnion_Reset : test agree (alone OAuto [n 1 (o_bool_integer OAuto); n 2 (o_bool OAuto)])
  [ok one_both; fin; Get [] ==> Val (VVar 0 (VTup [B true; I 10])); ok "null"; fin; isset [] false; empty [] true].
Proof. runs. Qed.
Example StandaloneSUnion_AllValuesMembers : test agree (alone OAuto [n 1 (o_bool_integer OAuto); n 2 (o_double_string OAuto)])
  [ok one_both; fin; Get [] ==> Val (VVar 0 (VTup [B true; I 10]));
   ok two_both; fin; Get [] ==> Val (VVar 1 (VTup [b11_5; S' "value"]))].
Proof. runs. Qed.
Example StandaloneSUnion_StringType :
  test agree (SUni true TyStr "type" [must "1" (o_bool OAuto); must "2" (o_int OAuto)] None)
  [ok str_one; fin; Get [] ==> Val (VVar 0 (VTup [B true])); ok str_two; fin; Get [] ==> Val (VVar 1 (VTup [I 100]))].
Proof. runs. Qed.
Example StandaloneSUnion_IncorrectTypeType : test agree (alone OAuto (bool_int OAuto))
  [Parse str_one ==> Error "Unexpected token string"; isset [] false].
Proof. runs. Qed.
Example StandaloneSUnion_IncorrectTypeValue : test agree (alone OAuto (bool_int OAuto))
  [Parse three ==> Error "Unexpected member 3"; isset [] false].
Proof. runs. Qed.
Example StandaloneSUnion_IncorrectTypeMember : test agree (alone OAuto (bool_int OAuto))
  [Parse error_first ==> Error "Unexpected member error"; isset [] false].
Proof. runs. Qed.
Example StandaloneSUnion_MembersWithCallbackError :
  test (mkEnv (fun _ _ _ _ => mkCO [] [] None CFalse) (fun _ => "?") (fun _ => None) (fun _ _ => None)) (alone OAuto cb_members)
  [Parse one_bool ==> Error "Callback returned false"; isset [] false;
   Parse two_int ==> Error "Callback returned false"; isset [] false].
Proof. runs. Qed.
Example StandaloneSUnion_SUnionWithCallback : test agree (alone OAuto (bool_int OAuto))
  [SetFinish [] 1 ==> Done; ok one_bool; fin; Get [] ==> Val (VVar 0 (VTup [B true]));
   Told 1 ==> Args [[Some (VVar 0 (VTup [B true]))]];
   ok two_int; fin; Get [] ==> Val (VVar 1 (VTup [I 100]));
   Told 1 ==> Args [[Some (VVar 0 (VTup [B true]))]; [Some (VVar 1 (VTup [I 100]))]]].
Proof. runs. Qed.
Example StandaloneSUnion_SUnionWithCallbackError : test (refuse 1) (alone OAuto (bool_int OAuto))
  [SetFinish [] 1 ==> Done; Parse one_bool ==> Error "Callback returned false"; isset [] true].
Proof. runs. Qed.
Example StandaloneSUnion_SUnionWithUnexpectedObject : test agree (alone OAuto (bool_int OAuto))
  [Parse one_error ==> Error "Unexpected member error"; isset [] false].
Proof. runs. Qed.
Example StandaloneSUnion_Move : test fill (alone OAuto [n 1 (o_bool_integer OCustom); n 2 (o_double_string OCustom)])
  [SetFinish [Mem 0] 1 ==> Done; SetFinish [Mem 1] 2 ==> Done;
   ok one_both; fin; Pop [] ==> Val (VVar 0 (cust [B true; I 10])); isset [] false;
   ok two_both; fin; Pop [] ==> Val (VVar 1 (cust [b11_5; S' "value"])); isset [] false].
Proof. runs. Qed.
Example StandaloneSUnion_StandaloneSUnionWithParserReference : test agree (alone OAuto [n 1 (two OAuto false None); n 2 (o_int OAuto)])
  [ok one_bool_string; fin; Get [] ==> Val (VVar 0 two_val); ok two_int; fin; Get [] ==> Val (VVar 1 (VTup [I 100]))].
Proof. runs. Qed.
Example StandaloneSUnion_MoveAssignment : test agree (alone OAuto [n 1 (o_bool_integer OAuto); n 2 (o_double_string OAuto)])
  [ok one_both; fin; Get [] ==> Val (VVar 0 (VTup [B true; I 10]))].
Proof. runs. Qed.
