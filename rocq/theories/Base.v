(** Data exchanged by the model and by the specifications: scalars, tokens,
    stored values, exceptions, the observable view of a parser object,
    callback arguments and results.  The functions of this file belong to the
    specifications; the code's own versions are in Prims.v.

    All file/line citations are relative to /repo/library/sjparser. *)

From Coq Require Export List Arith ZArith Lia Bool String Ascii.
From Coq Require Import SpecFloat.
From Coq Require Import DecimalString.
Export ListNotations.
Local Open Scope string_scope.
Set Implicit Arguments.

(** ** Scalars

    The four JSON scalar types of the library: value.h:34
    ("std::string, int64_t, bool or double").
    Simplification: [int64_t] is unbounded [Z] (yajl rejects integers out of
    range before SJParser sees them); [double] is the standard library's
    IEEE-754 [spec_float], which is only ever compared and copied. *)
Inductive vtype := TyBool | TyInt | TyDouble | TyStr.

Inductive scalar :=
| SBool (b : bool)
| SInt (z : Z)
| SDouble (f : spec_float)
| SStr (s : string).

Definition vtype_eqb (a b : vtype) : bool :=
  match a, b with
  | TyBool, TyBool | TyInt, TyInt | TyDouble, TyDouble | TyStr, TyStr => true
  | _, _ => false
  end.

Definition ty_of (x : scalar) : vtype :=
  match x with
  | SBool _ => TyBool | SInt _ => TyInt | SDouble _ => TyDouble | SStr _ => TyStr
  end.

(** Equal member names ([operator==] of the name type).  For doubles this is IEEE
    equality: NaN is different from itself and the two zeros are equal. *)
Definition sc_eqb (a b : scalar) : bool :=
  match a, b with
  | SBool x, SBool y => Bool.eqb x y
  | SInt x, SInt y => Z.eqb x y
  | SDouble x, SDouble y => SFeqb x y
  | SStr x, SStr y => String.eqb x y
  | _, _ => false
  end.

(** The same as a relation: equal, and for doubles equal as numbers. *)
Definition same_name (a b : scalar) : Prop :=
  match a, b with
  | SDouble x, SDouble y => SFeqb x y = true
  | _, _ => a = b
  end.

Lemma same_name_iff a b : sc_eqb a b = true <-> same_name a b.
Proof.
  destruct a, b; simpl; try (split; [discriminate|congruence]).
  - rewrite Bool.eqb_true_iff. split; congruence.
  - rewrite Z.eqb_eq. split; congruence.
  - reflexivity.
  - rewrite String.eqb_eq. split; congruence.
Qed.
Lemma same_name_not a b : sc_eqb a b = false <-> ~ same_name a b.
Proof. rewrite <- same_name_iff. destruct (sc_eqb a b); split; congruence. Qed.

(** ** Tokens: the ten overloads of [TokenParser::on]
    (internals/token_parser.h:63-72, token structs at 32-39). *)
Inductive token :=
| TNull
| TSc (x : scalar)
| TMapStart
| TKey (k : string)
| TMapEnd
| TArrStart
| TArrEnd.

(** Names used in "Unexpected token ..." (internals/token_parser.cpp:55-89 and
    internals/array_parser.cpp:43-83). *)
Definition tok_kind (t : token) : string :=
  match t with
  | TNull => "null" (* never reported: on(NullT) does not throw *)
  | TSc (SBool _) => "boolean"
  | TSc (SInt _) => "integer"
  | TSc (SDouble _) => "double"
  | TSc (SStr _) => "string"
  | TMapStart => "map start"
  | TKey _ => "map key"
  | TMapEnd => "map end"
  | TArrStart => "array start"
  | TArrEnd => "array end"
  end.

(** ** Stored values ([ValueType] of the storing parsers): scalars
    (value.h:41), [std::vector] (s_array.h:45), [std::tuple]
    (s_auto_object.h:60), [std::variant] (s_union.h:74), [std::map]
    (s_map.h:48), user type (s_custom_object.h:72).

    [VMap] lists the pairs in the order of the keys, as [std::map] iterates.
    [VCust None] is a value-initialised user object ([_value = {}]) and
    [VCust (Some v)] one that the user's callback has filled with [v]. *)
Inductive value :=
| VSc (x : scalar)
| VVec (l : list value)
| VTup (l : list value)
| VVar (i : nat) (v : value)
| VMap (l : list (string * value))
| VCust (o : option value).

(** Lexicographic order on bytes ([std::string::operator<]). *)
Fixpoint str_ltb (a b : string) : bool :=
  match a, b with
  | EmptyString, EmptyString => false
  | EmptyString, String _ _ => true
  | String _ _, EmptyString => false
  | String x a', String y b' =>
      if (N_of_ascii x <? N_of_ascii y)%N then true
      else if (N_of_ascii x =? N_of_ascii y)%N then str_ltb a' b'
      else false
  end.

(** [std::map::insert] (used at s_map.h:249): the sorted position, and no change
    if the key is already there. *)
Fixpoint map_insert {A} (k : string) (v : A) (l : list (string * A))
  : list (string * A) :=
  match l with
  | [] => [(k, v)]
  | (k', v') :: l' =>
      if String.eqb k k' then l
      else if str_ltb k k' then (k, v) :: l
      else (k', v') :: map_insert k v l'
  end.

(** ** Exceptions: [std::exception] with its message, or anything else. *)
Inductive exn := XStd (msg : string) | XOther.

(** [e.what()] is a C string: the message up to the first NUL byte. *)
Fixpoint c_str (s : string) : string :=
  match s with
  | EmptyString => EmptyString
  | String c s' =>
      if Ascii.eqb c Ascii.zero then EmptyString else String c (c_str s')
  end.

Definition unexpected (t : token) : exn := XStd ("Unexpected token " ++ tok_kind t).

(** Texts of the exceptions thrown by the library. *)
Definition msg_unset := "Can't get value, parser is unset".       (* internals/token_parser.h:109 *)
Definition msg_cb_false := "Callback returned false".             (* value.cpp:68 and others *)
Definition msg_ecb_false := "Element callback returned false".    (* map.h:236, s_map.h:247 *)
Definition msg_stack_empty := "Parsers stack is empty".           (* internals/dispatcher.h:53 *)
Definition msg_pop_empty := "Can not pop parser, parsers stack is empty". (* internals/dispatcher.cpp:40 *)
Definition msg_stack_left := "Dispatcher parsers stack is not empty in the end".
Definition msg_emb_union := "Union with an empty type member can't parse this". (* union.h:322,331 *)

(** Decimal rendering done by [std::stringstream << n]. *)
Definition z2s (z : Z) : string := NilZero.string_of_int (Z.to_int z).
Definition n2s (n : nat) : string := NilZero.string_of_uint (Nat.to_uint n).

(** [std::stringstream << name] (internals/key_value_parser.h:243,327).  The
    rendering of a double is a parameter. *)
Definition fmt_scalar (fmt_double : spec_float -> string) (x : scalar) : string :=
  match x with
  | SBool true => "1"
  | SBool false => "0"
  | SInt z => z2s z
  | SDouble f => fmt_double f
  | SStr s => s
  end.

(** ** Observable view of a parser object: what the public API of the object
    shows.  [v_set] = isSet(), [v_empty] = isEmpty(), [v_val] = what get()
    returns (None if get() throws or does not exist), [v_cur] =
    currentMemberId() of a set union (0 otherwise), [v_kids] = the views of
    parser<n>() for objects and unions.  The element parser of an array or map is
    not part of its view (see DESIGN.md, "callbacks"). *)
Inductive view := View {
  v_set : bool;
  v_empty : bool;
  v_val : option value;
  v_cur : nat;
  v_kids : list view
}.

(** What is recorded about a callback invocation: the callback's identity and
    its arguments.
    - [OVal v]: [const ValueType &] (value.h:44, s_array.h:48,
      s_auto_object.h:63, s_union.h:77);
    - [OSelf w]: the parser itself (array.h:43, map.h:52, s_map.h:55,
      object.h:68, union.h:80);
    - [OElem k w]: map key and element parser (map.h:48, s_map.h:51);
    - [OCust w v]: parser and stored value (s_custom_object.h:75). *)
Inductive obs :=
| OVal (v : value)
| OSelf (w : view)
| OElem (k : string) (w : view)
| OCust (w : view) (v : value).

Definition cbid := nat.

Inductive event := Ev (c : cbid) (o : obs).

(** Result of a callback: returns true, returns false, throws a
    std::exception, throws something else. *)
Inductive cbres := CTrue | CFalse | CThrow (msg : string) | CThrowOther.

(** List update used everywhere. *)
Fixpoint set_nth {A} (n : nat) (x : A) (l : list A) : list A :=
  match l, n with
  | [], _ => []
  | _ :: l', O => x :: l'
  | y :: l', S n' => y :: set_nth n' x l'
  end.

(** ** Member specification: internals/key_value_parser.h:150-153 (name,
    optional, default_value) and member.h:47-57.
    Constructors (member.h:151-176): [Member{name, parser}] is
    [mkM name false None], with Presence::Optional [mkM name true None], with a
    default value [mkM name true (Some v)]. *)
Record mspec := mkM {
  m_name : scalar;
  m_opt : bool;
  m_def : option value
}.

(** Kinds of object parsers: object.h, s_auto_object.h, s_custom_object.h. *)
Inductive okind := OPlain | OAuto | OCustom.

(** ** Declarations: what the user writes when constructing a parser. *)
Inductive schema :=
| SVal (t : vtype) (cb : option cbid)                       (* Value<T>, value.h:54 *)
| SArr (store : bool) (e : schema) (cb : option cbid)       (* Array array.h:56 / SArray s_array.h:62 *)
| SMp (store : bool) (e : schema) (ecb cb : option cbid)    (* Map map.h:65,87 / SMap s_map.h:69,92 *)
| SObj (k : okind) (ms : list (mspec * schema)) (ign : bool) (cb : option cbid)
    (* Object object.h:81,100 / SAutoObject s_auto_object.h:76,96 /
       SCustomObject s_custom_object.h:92,115; ign: options.unknown_member ==
       Reaction::Ignore *)
| SUni (store : bool) (t : vtype) (tm : string) (ms : list (mspec * schema))
       (cb : option cbid)
    (* Union union.h:100,124 / SUnion s_union.h:97,121; tm = "": embedded *)
| SIgn.                                                     (* Ignore, internals/ignore.h:32 *)

Lemma vtype_eqb_eq a b : vtype_eqb a b = true <-> a = b.
Proof. destruct a, b; simpl; split; congruence. Qed.
