(** Primitive operations of the code: what the library takes from the C++ standard
    library, its error texts, and the overload resolution on token types.

    The specification has its own versions of these (Base.v, Spec.v); the proofs
    connect the two.  All citations are relative to /repo/library/sjparser. *)

From Coq Require Import SpecFloat DecimalString.
From Verif Require Export Base.
Local Open Scope string_scope.
Set Implicit Arguments.

(** [operator==] of the name type, by which
    [std::unordered_map<InternalNameType, ...>] (internals/key_value_parser.h:162)
    finds members; IEEE equality for doubles. *)
Definition name_eqb (a b : scalar) : bool :=
  match a, b with
  | SBool x, SBool y => Bool.eqb x y
  | SInt x, SInt y => Z.eqb x y
  | SDouble x, SDouble y => SFeqb x y
  | SStr x, SStr y => String.eqb x y
  | _, _ => false
  end.

(** The overload [on(T)] that a [Value<T>] (value.h:113) or the type member of a
    [Union<T, ...>] (union.h:218) overrides: does a scalar token reach it?  The other
    scalar overloads are those of TokenParser. *)
Definition takes_scalar (t : vtype) (x : scalar) : bool :=
  match t, x with
  | TyBool, SBool _ | TyInt, SInt _ | TyDouble, SDouble _ | TyStr, SStr _ => true
  | _, _ => false
  end.

(** The texts of TokenParser::on / unexpectedToken
    (internals/token_parser.cpp:55-93, internals/token_parser.h:117-119). *)
Definition tok_text (t : token) : string :=
  match t with
  | TNull => "null" (* never reported: on(NullT) does not throw *)
  | TSc (SBool _) => "boolean"
  | TSc (SInt _) => "integer"
  | TSc (SDouble _) => "double"
  | TSc (SStr _) => "string"
  | TMapStart => "map start"
  | TKey _ => "map key"
  | TMapEnd => "map end"
  | TArrStart => "array start"
  | TArrEnd => "array end"
  end.
Definition unexpected_token (t : token) : exn := XStd ("Unexpected token " ++ tok_text t).

(** [std::string::operator<]. *)
Fixpoint str_less (a b : string) : bool :=
  match a, b with
  | EmptyString, EmptyString => false
  | EmptyString, String _ _ => true
  | String _ _, EmptyString => false
  | String x a', String y b' =>
      if (N_of_ascii x <? N_of_ascii y)%N then true
      else if (N_of_ascii x =? N_of_ascii y)%N then str_less a' b'
      else false
  end.

(** [std::map::insert] (used at s_map.h:249): the sorted position, and no change
    if the key is already there. *)
Fixpoint std_insert {A} (k : string) (v : A) (l : list (string * A))
  : list (string * A) :=
  match l with
  | [] => [(k, v)]
  | (k', v') :: l' =>
      if String.eqb k k' then l
      else if str_less k k' then (k, v) :: l
      else (k', v') :: std_insert k v l'
  end.

(** A [const char *] made into a [std::string]: up to the first NUL byte. *)
Fixpoint from_c (s : string) : string :=
  match s with
  | EmptyString => EmptyString
  | String c s' =>
      if Ascii.eqb c Ascii.zero then EmptyString else String c (from_c s')
  end.

(** Texts of the exceptions thrown by the library. *)
Definition e_unset := "Can't get value, parser is unset".       (* internals/token_parser.h:109 *)
Definition e_cb_false := "Callback returned false".             (* value.cpp:68 and others *)
Definition e_ecb_false := "Element callback returned false".    (* map.h:236, s_map.h:247 *)
Definition e_stack_empty := "Parsers stack is empty".           (* internals/dispatcher.h:53 *)
Definition e_pop_empty := "Can not pop parser, parsers stack is empty". (* internals/dispatcher.cpp:40 *)
Definition e_emb_union := "Union with an empty type member can't parse this". (* union.h:322,331 *)
Definition e_stack_left := "Dispatcher parsers stack is not empty in the end". (* yajl_parser.cpp:81 *)

(** Decimal rendering done by [std::stringstream << n]. *)
Definition out_int (z : Z) : string := NilZero.string_of_int (Z.to_int z).
Definition out_nat (n : nat) : string := NilZero.string_of_uint (Nat.to_uint n).

(** [std::stringstream << name] (internals/key_value_parser.h:243,327).  The
    rendering of a double is a parameter. *)
Definition out_name (fmt_double : spec_float -> string) (x : scalar) : string :=
  match x with
  | SBool true => "1"
  | SBool false => "0"
  | SInt z => out_int z
  | SDouble f => fmt_double f
  | SStr s => s
  end.

(** The specification's way to say it. *)
Lemma takes_scalar_eq t x : takes_scalar t x = vtype_eqb (ty_of x) t.
Proof. destruct t, x; reflexivity. Qed.
Lemma name_eqb_eq a b : name_eqb a b = sc_eqb a b.
Proof. destruct a, b; reflexivity. Qed.
