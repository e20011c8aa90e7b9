(** Executable model of the parser objects and of the dispatcher.

    Citations are relative to /repo/library/sjparser.  Every definition models
    the C++ function cited in its comment.

    Global simplifications:
    - parser objects form a tree (an lvalue parser referenced from two places of
      one declaration, i.e. aliasing, is not modelled); pointers to parsers are
      paths in this tree;
    - one dispatcher is alive at a time; a dispatcher pointer is the identity
      (a number) of the dispatcher it was set to; using a pointer to any other
      dispatcher than the live one is undefined behaviour;
    - memory allocation fails only at the places listed in [faults] and [FStore] below
      (and in Alloc.v: yajl_alloc), not while the text of an exception is built and not
      when the root parser is pushed in the constructor of the dispatcher. *)

From Verif Require Export Base Prims.
From Coq Require Import SpecFloat.
Local Open Scope string_scope.
Set Implicit Arguments.

(** ** Objects *)

(** TokenParser's fields: internals/token_parser.h:92-94. *)
Record base := mkB {
  b_disp : option nat;      (* _dispatcher; None = nullptr *)
  b_set : bool;             (* _set *)
  b_empty : bool            (* _empty *)
}.

(** Ignore::Structure: internals/ignore.h:37. *)
Inductive structure := StObj | StArr.

(** Ignore: internals/ignore.h:32-51; [ig_st] is _structure, back() first. *)
Record igst := mkI { ig_b : base; ig_st : list structure }.

(** The parser classes, with their fields:
    - [PVal]: Value (value.h:116-117);
    - [PArr]: ArrayParser (internals/array_parser.h:47: _started), Array
      (array.h:102: _parser) and, if [store], SArray (s_array.h:132: _values);
    - [PMap]: Map (map.h:142-145) and, if [store], SMap (s_map.h:171-173);
    - [PObj]: KeyValueParser<std::string,...> (internals/key_value_parser.h:161-165)
      with Object / SAutoObject (s_auto_object.h:189) / SCustomObject
      (s_custom_object.h:234);
    - [PUni]: KeyValueParser<TypeMemberT,...> with Union (union.h:235-238) and,
      if [store], SUnion (s_union.h:216);
    - [PIgn]: a stand-alone Ignore.
    The lookup tables _parsers_array, _parsers_map, _members_ids_map hold only
    pointers to the members and are derived from [ms] (see Move.v for them). *)
Inductive parser :=
| PVal (b : base) (t : vtype) (v : value) (cb : option cbid)
| PArr (b : base) (started : bool) (store : bool) (vals : list value)
       (e : parser) (cb : option cbid)
| PMap (b : base) (store : bool) (key : string) (vals : list (string * value))
       (e : parser) (ecb cb : option cbid)
| PObj (b : base) (k : okind) (v : value) (ms : list (mspec * parser))
       (ig : igst) (ign : bool) (cb : option cbid)
| PUni (b : base) (store : bool) (v : value) (t : vtype) (tm : string)
       (cur : nat) (ms : list (mspec * parser)) (ig : igst) (cb : option cbid)
| PIgn (i : igst).

Definition base_of (p : parser) : base :=
  match p with
  | PVal b _ _ _ => b
  | PArr b _ _ _ _ _ => b
  | PMap b _ _ _ _ _ _ => b
  | PObj b _ _ _ _ _ _ => b
  | PUni b _ _ _ _ _ _ _ _ => b
  | PIgn i => ig_b i
  end.

Definition with_base (p : parser) (b : base) : parser :=
  match p with
  | PVal _ t v cb => PVal b t v cb
  | PArr _ sd st vals e cb => PArr b sd st vals e cb
  | PMap _ st key vals e ecb cb => PMap b st key vals e ecb cb
  | PObj _ k v ms ig ign cb => PObj b k v ms ig ign cb
  | PUni _ st v t tm cur ms ig cb => PUni b st v t tm cur ms ig cb
  | PIgn i => PIgn (mkI b (ig_st i))
  end.

(** isSet / isEmpty: internals/token_parser.h:99-105. *)
Definition is_set (p : parser) : bool := b_set (base_of p).
Definition is_empty (p : parser) : bool := b_empty (base_of p).
Definition disp_of (p : parser) : option nat := b_disp (base_of p).

(** _set = x (internals/token_parser.cpp:39, internals/token_parser.h:114). *)
Definition set_set (x : bool) (p : parser) : parser :=
  let b := base_of p in with_base p (mkB (b_disp b) x (b_empty b)).

(** setNotEmpty: internals/token_parser.h:121-123. *)
Definition set_not_empty (p : parser) : parser :=
  let b := base_of p in with_base p (mkB (b_disp b) (b_set b) false).

(** TokenParser::reset: internals/token_parser.cpp:33-36. *)
Definition reset_base (b : base) : base := mkB (b_disp b) false true.

(** Ignore::reset: internals/ignore.cpp:28-32. *)
Definition reset_ig (i : igst) : igst := mkI (reset_base (ig_b i)) [].

(** Value-initialised ValueType, [_value = {}] / [_values = {}]. *)
Definition dflt_sc (t : vtype) : scalar :=
  match t with
  | TyBool => SBool false | TyInt => SInt 0
  | TyDouble => SDouble (S754_zero false) | TyStr => SStr ""
  end.

Fixpoint dflt (p : parser) : value :=
  match p with
  | PVal _ t _ _ => VSc (dflt_sc t)
  | PArr _ _ _ _ _ _ => VVec []
  | PMap _ _ _ _ _ _ _ => VMap []
  | PObj _ OAuto _ ms _ _ _ => VTup (map (fun mp => dflt (snd mp)) ms)
  | PObj _ OCustom _ _ _ _ _ => VCust None
  | PObj _ OPlain _ _ _ _ _ => VTup []        (* no ValueType *)
  | PUni _ _ _ _ _ _ (mp :: _) _ _ => VVar 0 (dflt (snd mp))
  | PUni _ _ _ _ _ _ [] _ _ => VVar 0 (VTup [])
  | PIgn _ => VTup []                          (* no ValueType *)
  end.

(** The virtual [reset()]:
    - Value: TokenParser::reset;
    - ArrayParser::reset internals/array_parser.cpp:29-33 (base, then element
      parser; _started is NOT touched), SArray::reset s_array.h:199-202;
    - Map has no override (the element parser is NOT reset), SMap::reset
      s_map.h:259-262;
    - KeyValueParser::reset internals/key_value_parser.h:211-219,
      SAutoObject::reset s_auto_object.h:269-272, SCustomObject::reset
      s_custom_object.h:317-320;
    - Union::reset union.h:306-309, SUnion::reset s_union.h:296-299;
    - Ignore::reset. *)
Fixpoint reset (p : parser) : parser :=
  match p with
  | PVal b t v cb => PVal (reset_base b) t v cb
  | PArr b sd st vals e cb =>
      PArr (reset_base b) sd st (if st then [] else vals) (reset e) cb
  | PMap b st key vals e ecb cb =>
      PMap (reset_base b) st key (if st then [] else vals) e ecb cb
  | PObj b k v ms ig ign cb =>
      PObj (reset_base b) k
           (match k with OPlain => v | _ => dflt p end)
           (map (fun mp => (fst mp, reset (snd mp))) ms) (reset_ig ig) ign cb
  | PUni b st v t tm cur ms ig cb =>
      PUni (reset_base b) st (if st then dflt p else v) t tm 0
           (map (fun mp => (fst mp, reset (snd mp))) ms) (reset_ig ig) cb
  | PIgn i => PIgn (reset_ig i)
  end.

Definition disp_base (d : option nat) (b : base) : base :=
  mkB d (b_set b) (b_empty b).

(** The virtual [setDispatcher()]: internals/token_parser.cpp:29-31 (Value,
    arrays, Ignore: only the object itself), Map::setDispatcher map.h:211-214,
    KeyValueParser::setDispatcher internals/key_value_parser.h:200-208. *)
Fixpoint set_disp (d : option nat) (p : parser) : parser :=
  match p with
  | PVal b t v cb => PVal (disp_base d b) t v cb
  | PArr b sd st vals e cb => PArr (disp_base d b) sd st vals e cb
  | PMap b st key vals e ecb cb =>
      PMap (disp_base d b) st key vals (set_disp d e) ecb cb
  | PObj b k v ms ig ign cb =>
      PObj (disp_base d b) k v (map (fun mp => (fst mp, set_disp d (snd mp))) ms)
           (mkI (disp_base d (ig_b ig)) (ig_st ig)) ign cb
  | PUni b st v t tm cur ms ig cb =>
      PUni (disp_base d b) st v t tm cur
           (map (fun mp => (fst mp, set_disp d (snd mp))) ms)
           (mkI (disp_base d (ig_b ig)) (ig_st ig)) cb
  | PIgn i => PIgn (mkI (disp_base d (ig_b i)) (ig_st i))
  end.

(** The stored value of a storing parser (None: the class has no ValueType,
    internals/traits.h:30-41). *)
Definition stored (p : parser) : option value :=
  match p with
  | PVal _ _ v _ => Some v
  | PArr _ _ true vals _ _ => Some (VVec vals)
  | PMap _ true _ vals _ _ _ => Some (VMap vals)
  | PObj _ OPlain _ _ _ _ _ => None
  | PObj _ _ v _ _ _ _ => Some v
  | PUni _ true v _ _ _ _ _ _ => Some v
  | _ => None
  end.

(** get(): value.cpp:72-75, s_array.h:177-180, s_map.h:232-235,
    s_auto_object.h:236-239, s_custom_object.h:284-287, s_union.h:260-263
    (checkSet, internals/token_parser.h:107-111).  [None] = throws
    "Can't get value, parser is unset".  A class without ValueType has no get();
    such a call does not compile, and is mapped to the same [None]. *)
Definition get_value (p : parser) : option value :=
  if is_set p then stored p else None.

(** pop(): value.cpp:77-81, s_array.h:183-187, s_map.h:238-242,
    s_auto_object.h:242-246, s_custom_object.h:291-295, s_union.h:267-271.
    The moved-from content is left in place; it is unobservable since the parser
    is unset and every parser resets or overwrites it before setting it again. *)
Definition pop_value (p : parser) : option (value * parser) :=
  match get_value p with
  | Some v => Some (v, set_set false p)
  | None => None
  end.

(** What the public API shows of an object. *)
Fixpoint view_of (p : parser) : view :=
  let b := base_of p in
  match p with
  | PObj _ _ _ ms _ _ _ =>
      View (b_set b) (b_empty b) (get_value p) 0
           (map (fun mp => view_of (snd mp)) ms)
  | PUni _ _ _ _ _ cur ms _ _ =>
      View (b_set b) (b_empty b) (get_value p) (if b_set b then cur else 0)
           (map (fun mp => view_of (snd mp)) ms)
  | _ => View (b_set b) (b_empty b) (get_value p) 0 []
  end.

(** ** Paths (pointers) *)
Inductive step := Elem | Mem (n : nat) | Ign.
Definition path := list step.

Definition child (p : parser) (st : step) : option parser :=
  match p, st with
  | PArr _ _ _ _ e _, Elem => Some e
  | PMap _ _ _ _ e _ _, Elem => Some e
  | PObj _ _ _ ms _ _ _, Mem n => option_map snd (nth_error ms n)
  | PObj _ _ _ _ ig _ _, Ign => Some (PIgn ig)
  | PUni _ _ _ _ _ _ ms _ _, Mem n => option_map snd (nth_error ms n)
  | PUni _ _ _ _ _ _ _ ig _, Ign => Some (PIgn ig)
  | _, _ => None
  end.

Definition set_mem (n : nat) (q : parser) (ms : list (mspec * parser))
  : list (mspec * parser) :=
  match nth_error ms n with
  | Some mp => set_nth n (fst mp, q) ms
  | None => ms
  end.

Definition to_ig (q : parser) (old : igst) : igst :=
  match q with PIgn i => i | _ => old end.

Definition set_child (p : parser) (st : step) (q : parser) : parser :=
  match p, st with
  | PArr b sd sto vals _ cb, Elem => PArr b sd sto vals q cb
  | PMap b sto key vals _ ecb cb, Elem => PMap b sto key vals q ecb cb
  | PObj b k v ms ig ign cb, Mem n => PObj b k v (set_mem n q ms) ig ign cb
  | PObj b k v ms ig ign cb, Ign => PObj b k v ms (to_ig q ig) ign cb
  | PUni b sto v t tm cur ms ig cb, Mem n =>
      PUni b sto v t tm cur (set_mem n q ms) ig cb
  | PUni b sto v t tm cur ms ig cb, Ign =>
      PUni b sto v t tm cur ms (to_ig q ig) cb
  | _, _ => p
  end.

Fixpoint get (pi : path) (p : parser) : option parser :=
  match pi with
  | [] => Some p
  | st :: pi' =>
      match child p st with Some c => get pi' c | None => None end
  end.

Fixpoint put (pi : path) (q : parser) (p : parser) : parser :=
  match pi with
  | [] => q
  | st :: pi' =>
      match child p st with
      | Some c => set_child p st (put pi' q c)
      | None => p
      end
  end.

(** ** Callbacks *)

(** What a callback receives: the same cases as [obs], but with the real object,
    so that it may look at everything. *)
Inductive cbarg :=
| AVal (v : value)
| ASelf (p : parser)
| AElem (k : string) (p : parser)
| ACust (p : parser) (v : value).

Definition obs_of (a : cbarg) : obs :=
  match a with
  | AVal v => OVal v
  | ASelf p => OSelf (view_of p)
  | AElem k p => OElem k (view_of p)
  | ACust p v => OCust (view_of p) v
  end.

(** What a callback does: [co_pops] - the storing parsers below its parser
    argument (paths relative to it; [] is the argument itself) on which it calls
    pop(); [co_away] - the same for any parser of the declaration, which it knows
    otherwise (by a captured reference); [co_new] - new content of the [ValueType &]
    argument of an SCustomObject callback; [co_res] - how it ends.
    Callbacks that call other mutating methods (setFinishCallback, reset, on,
    parse, ...) are not modelled. *)
Record cbout := mkCO {
  co_pops : list path;
  co_away : list path;
  co_new : option value;
  co_res : cbres
}.

(** ** Machine state *)
Record mstate := mkS {
  m_root : parser;          (* the root parser object *)
  m_stack : list path;      (* Dispatcher::_parsers (internals/dispatcher.h:44), back() first *)
  m_log : list event        (* callback invocations so far, oldest first *)
}.

(** The mutually recursive calls. *)
Inductive call :=
| CPop                          (* Dispatcher::popParser *)
| CDisp (t : token)             (* Dispatcher::on *)
| COn (pi : path) (t : token)   (* TokenParser::on, virtual *)
| CEnd (pi : path)              (* TokenParser::endParsing *)
| CChild (pi : path).           (* TokenParser::childParsed, virtual *)

(** What happens when memory runs out (std::bad_alloc) during a call: [FAt k x] - one of
    the allocations of the call itself fails with exception [x], and leaves the [k]-th of
    the states listed in [faults] below (if there is one); [FStore x] - the allocation of the container
    that stores a value ([push_back], [insert], the assignment of a tuple or variant).
    Allocations while the text of another exception is built are not modelled. *)
Inductive fault := FAt (k : nat) (x : exn) | FStore (x : exn).

(** The program around the library: its callbacks - functions of the callback
    identity, of everything that callbacks have been told so far (so they may be
    stateful), of the state of all the parsers of the declaration (which they may look
    at), and of the argument - the rendering of doubles in error texts, what
    happens when a value is put into a storing parser (the assignment operators,
    copy and move constructors of the user's value types may throw), and which
    allocations fail. *)
Record env := mkEnv {
  e_cb : cbid -> list event -> parser -> cbarg -> cbout;
  e_fmt : spec_float -> string;
  e_store : value -> option exn;
  e_alloc : call -> mstate -> option fault
}.

(** pop() on the node at a relative path. *)
Definition unset_at (p : parser) (rel : path) : parser :=
  match get rel p with
  | Some q => match stored q with
              | Some _ => put rel (set_set false q) p
              | None => p
              end
  | None => p
  end.

Definition apply_pops (rels : list path) (p : parser) : parser :=
  fold_left unset_at rels p.

Inductive ub := NullDispatcher | DanglingDispatcher | BadPointer.

(** Outcome of a C++ call: return, exception (with the state it leaves behind),
    undefined behaviour, out of fuel (proved unreachable). *)
Inductive res :=
| ROk (s : mstate)
| RThrow (e : exn) (s : mstate)
| RUB (u : ub)
| RFuel.

Definition bind (r : res) (k : mstate -> res) : res :=
  match r with ROk s => k s | _ => r end.

Definition at_node (s : mstate) (pi : path) (k : parser -> res) : res :=
  match get pi (m_root s) with
  | Some p => k p
  | None => RUB BadPointer
  end.

Definition upd (s : mstate) (pi : path) (q : parser) : mstate :=
  mkS (put pi q (m_root s)) (m_stack s) (m_log s).

Definition set_stack (s : mstate) (st : list path) : mstate :=
  mkS (m_root s) st (m_log s).

Definition add_log (s : mstate) (e : event) : mstate :=
  mkS (m_root s) (m_stack s) (m_log s ++ [e]).

(** pop() on parsers anywhere in the declaration. *)
Definition away (rels : list path) (s : mstate) : mstate :=
  fold_left (fun s rel => mkS (unset_at (m_root s) rel) (m_stack s) (m_log s)) rels s.

(** Dispatcher::pushParser: internals/dispatcher.cpp:34-36. *)
Definition push (s : mstate) (pi : path) : mstate :=
  set_stack s (pi :: m_stack s).

Section Exec.
Variable E : env.
Variable g : nat.   (* identity of the live dispatcher *)

(** Dereference of a dispatcher pointer. *)
Definition deref (d : option nat) (k : res) : res :=
  match d with
  | None => RUB NullDispatcher
  | Some x => if Nat.eqb x g then k else RUB DanglingDispatcher
  end.

Definition fmt (x : scalar) : string := out_name (e_fmt E) x.

(** Invocation of a [std::function] callback and the check of its result, e.g.
    value.cpp:67-69: [if (_on_finish && !_on_finish(_value)) throw ...]. *)
Definition run_cb (c : option cbid) (a : cbarg)
           (eff : cbout -> mstate -> mstate) (badmsg : string) (s : mstate) : res :=
  match c with
  | None => ROk s
  | Some c =>
      let out := e_cb E c (m_log s) (m_root s) a in
      let s1 := away (co_away out) (eff out (add_log s (Ev c (obs_of a)))) in
      match co_res out with
      | CTrue => ROk s1
      | CFalse => RThrow (XStd badmsg) s1
      | CThrow m => RThrow (XStd m) s1
      | CThrowOther => RThrow XOther s1
      end
  end.

Definition no_eff (o : cbout) (s : mstate) : mstate := s.

(** Effect of a callback that got a reference to the parser at [pi]. *)
Definition pops_eff (pi : path) (o : cbout) (s : mstate) : mstate :=
  match get pi (m_root s) with
  | Some p => upd s pi (apply_pops (co_pops o) p)
  | None => s
  end.

(** Effect of an SCustomObject callback (s_custom_object.h:311). *)
Definition cust_eff (pi : path) (o : cbout) (s : mstate) : mstate :=
  match get pi (m_root s) with
  | Some (PObj b k v ms ig ign cb) =>
      let v' := match co_new o with Some w => VCust (Some w) | None => v end in
      upd s pi (apply_pops (co_pops o) (PObj b k v' ms ig ign cb))
  | _ => s
  end.

(** ** finish() *)

(** Object::MemberChecker, object.h:276-287: the base-class constructor runs
    first, so the check goes from the last member to the first. *)
Fixpoint check_members (ms : list (mspec * parser)) : option exn :=
  match ms with
  | [] => None
  | (m, p) :: r =>
      match check_members r with
      | Some e => Some e
      | None =>
          if negb (is_set p) && negb (m_opt m)
          then Some (XStd ("Mandatory member " ++ fmt (m_name m) ++ " is not present"))
          else None
      end
  end.

(** SAutoObject::ValueSetter, s_auto_object.h:274-293 (last member first).
    Returns the members with the popped ones unset, and the tuple or the
    exception: a missing value, or what the assignment of a value throws
    (s_auto_object.h:283, 289).  The partially assigned tuple left by an exception is
    not modelled: the parser is unset then (s_auto_object.h:257). *)
Fixpoint set_values (ms : list (mspec * parser))
  : list (mspec * parser) * (exn + list value) :=
  match ms with
  | [] => ([], inr [])
  | (m, p) :: r =>
      let '(r', x) := set_values r in
      match x with
      | inl e => ((m, p) :: r', inl e)
      | inr vs =>
          if is_set p then
            match pop_value p with
            | Some (v, p') =>
                match e_store E v with
                | Some e => ((m, p') :: r', inl e)
                | None => ((m, p') :: r', inr (v :: vs))
                end
            | None => ((m, p) :: r', inl (XStd e_unset))
            end
          else if m_opt m then
            match m_def m with
            | Some d =>
                match e_store E d with
                | Some e => ((m, p) :: r', inl e)
                | None => ((m, p) :: r', inr (d :: vs))
                end
            | None =>
                ((m, p) :: r',
                 inl (XStd ("Optional member " ++ fmt (m_name m)
                            ++ " does not have a default value")))
            end
          else
            ((m, p) :: r',
             inl (XStd ("Mandatory member " ++ fmt (m_name m) ++ " is not present")))
      end
  end.

(** Re-throw in s_auto_object.h:256-262 and s_union.h:282-288. *)
Definition cannot_set (e : exn) : exn :=
  match e with
  | XStd m => XStd ("Can not set value: " ++ from_c m)
  | XOther => XStd "Can not set value: unknown exception"
  end.

(** Union::MemberChecker, union.h:369-385 (only the current member is checked). *)
Definition uni_check (cur : nat) (ms : list (mspec * parser)) : option exn :=
  match nth_error ms cur with
  | None => None
  | Some (m, p) =>
      if negb (is_set p) && negb (m_opt m)
      then Some (XStd ("Mandatory member #" ++ out_nat cur ++ " is not present"))
      else None
  end.

(** SUnion::ValueSetter, s_union.h:301-326.  The result [inr None] means that no
    member matched (a union without members); the assignments (s_union.h:312, 319) may
    throw. *)
Definition uni_set_value (cur : nat) (ms : list (mspec * parser))
  : list (mspec * parser) * (exn + option value) :=
  match nth_error ms cur with
  | None => (ms, inr None)
  | Some (m, p) =>
      if is_set p then
        match pop_value p with
        | Some (v, p') =>
            (set_mem cur p' ms,
             match e_store E v with
             | Some e => inl e
             | None => inr (Some (VVar cur v))
             end)
        | None => (ms, inl (XStd e_unset))
        end
      else if m_opt m then
        match m_def m with
        | Some d =>
            (ms, match e_store E d with
                 | Some e => inl e
                 | None => inr (Some (VVar cur d))
                 end)
        | None =>
            (ms, inl (XStd ("Optional member #" ++ out_nat cur
                            ++ " does not have a default value")))
        end
      else (ms, inl (XStd ("Mandatory member #" ++ out_nat cur ++ " is not present")))
  end.

(** The virtual [finish()]: Value value.cpp:66-70, Array array.h:153-157, SArray
    s_array.h:193-197, Map map.h:240-244, SMap s_map.h:253-257, Object
    object.h:258-274, SAutoObject s_auto_object.h:248-267, SCustomObject
    s_custom_object.h:298-314, Union union.h:351-367, SUnion s_union.h:274-293,
    Ignore internals/ignore.cpp:92. *)
Definition finish (pi : path) (s : mstate) : res :=
  at_node s pi (fun p =>
  match p with
  | PVal _ _ v cb => run_cb cb (AVal v) no_eff e_cb_false s
  | PArr _ _ st vals _ cb =>
      if st then run_cb cb (AVal (VVec vals)) no_eff e_cb_false s
      else run_cb cb (ASelf p) (pops_eff pi) e_cb_false s
  | PMap _ _ _ _ _ _ cb => run_cb cb (ASelf p) (pops_eff pi) e_cb_false s
  | PObj b k v ms ig ign cb =>
      if b_empty b then ROk (upd s pi (set_set false p))
      else
        match k with
        | OPlain =>
            match check_members ms with
            | Some e => RThrow e (upd s pi (set_set false p))
            | None => run_cb cb (ASelf p) (pops_eff pi) e_cb_false s
            end
        | OCustom =>
            match check_members ms with
            | Some e => RThrow e (upd s pi (set_set false p))
            | None => run_cb cb (ACust p v) (cust_eff pi) e_cb_false s
            end
        | OAuto =>
            match set_values ms with
            | (ms', inl e) =>
                RThrow (cannot_set e)
                       (upd s pi (set_set false (PObj b k v ms' ig ign cb)))
            | (ms', inr vs) =>
                run_cb cb (AVal (VTup vs)) no_eff e_cb_false
                       (upd s pi (PObj b k (VTup vs) ms' ig ign cb))
            end
        end
  | PUni b st v t tm cur ms ig cb =>
      if b_empty b then ROk (upd s pi (set_set false p))
      else if st then
        match uni_set_value cur ms with
        | (ms', inl e) =>
            RThrow (cannot_set e)
                   (upd s pi (set_set false (PUni b st v t tm cur ms' ig cb)))
        | (ms', inr o) =>
            let v' := match o with Some w => w | None => v end in
            run_cb cb (AVal v') no_eff e_cb_false
                   (upd s pi (PUni b st v' t tm cur ms' ig cb))
        end
      else
        match uni_check cur ms with
        | Some e => RThrow e (upd s pi (set_set false p))
        | None => run_cb cb (ASelf p) (pops_eff pi) e_cb_false s
        end
  | PIgn _ => ROk s
  end).

(** ** The recursive calls; [rec] is the call of the next level. *)
Variable rec : call -> mstate -> res.

(** Dispatcher::popParser: internals/dispatcher.cpp:38-47. *)
Definition body_pop (s : mstate) : res :=
  match m_stack s with
  | [] => RThrow (XStd e_pop_empty) s
  | _ :: sigma =>
      let s1 := set_stack s sigma in
      match sigma with
      | [] => ROk s1
      | q :: _ => rec (CChild q) s1
      end
  end.

(** Dispatcher::on: internals/dispatcher.h:51-56. *)
Definition body_disp (t : token) (s : mstate) : res :=
  match m_stack s with
  | [] => RThrow (XStd e_stack_empty) s
  | q :: _ => rec (COn q t) s
  end.

(** [if (_dispatcher != nullptr) _dispatcher->popParser();]
    internals/token_parser.cpp:42-44 and 50-52. *)
Definition pop_if_disp (d : option nat) (s : mstate) : res :=
  match d with
  | None => ROk s
  | Some _ => deref d (rec CPop s)
  end.

(** TokenParser::endParsing: internals/token_parser.cpp:38-45. *)
Definition body_end (pi : path) (s : mstate) : res :=
  at_node s pi (fun p =>
  bind (finish pi (upd s pi (set_set true p))) (fun s2 =>
  at_node s2 pi (fun p2 => pop_if_disp (disp_of p2) s2))).

(** The virtual [childParsed()]: TokenParser internals/token_parser.cpp:91
    (nothing), SArray s_array.h:189-191, Map map.h:234-238, SMap s_map.h:244-251,
    Union union.h:341-348.  push_back() and insert() of a value that throws leave the
    container unchanged (strong guarantee), the element has been popped. *)
Definition body_child (pi : path) (s : mstate) : res :=
  at_node s pi (fun p =>
  match p with
  | PArr b sd true vals e cb =>
      match pop_value e with
      | Some (v, e') =>
          match e_store E v with
          | Some x => RThrow x (upd s pi (PArr b sd true vals e' cb))
          | None => ROk (upd s pi (PArr b sd true (vals ++ [v])%list e' cb))
          end
      | None => RThrow (XStd e_unset) s
      end
  | PMap _ st key _ e ecb _ =>
      bind (run_cb ecb (AElem key e) (pops_eff (pi ++ [Elem])%list) e_ecb_false s)
      (fun s1 =>
       if st then
         at_node s1 pi (fun p1 =>
         match p1 with
         | PMap b st key vals e ecb cb =>
             match pop_value e with
             | Some (v, e') =>
                 match e_store E v with
                 | Some x => RThrow x (upd s1 pi (PMap b st key vals e' ecb cb))
                 | None => ROk (upd s1 pi (PMap b st key (std_insert key v vals) e' ecb cb))
                 end
             | None => RThrow (XStd e_unset) s1
             end
         | _ => ROk s1
         end)
       else ROk s1)
  | PUni _ _ _ _ tm _ _ _ _ =>
      bind (rec (CEnd pi) s) (fun s1 =>
      if String.eqb tm "" then
        at_node s1 pi (fun p1 => deref (disp_of p1) (rec (CDisp TMapEnd) s1))
      else ROk s1)
  | _ => ROk s
  end).

(** TokenParser::on(NullT): internals/token_parser.cpp:47-53. *)
Definition on_null (pi : path) (p : parser) (s : mstate) : res :=
  pop_if_disp (disp_of p) (upd s pi (reset p)).

(** Lookup in _parsers_map (internals/key_value_parser.h:235): index of the
    member with an equal name. *)
Fixpoint lookup {A} (nm : scalar) (ms : list (mspec * A)) : option nat :=
  match ms with
  | [] => None
  | (m, _) :: r =>
      if name_eqb (m_name m) nm then Some 0
      else match lookup nm r with Some n => Some (S n) | None => None end
  end.

(** KeyValueParser::onMember: internals/key_value_parser.h:231-248.  [ms]: the
    members, [ign]: options.unknown_member == Reaction::Ignore. *)
Definition on_member {A} (pi : path) (p : parser) (ms : list (mspec * A)) (ign : bool)
           (nm : scalar) (s : mstate) : res :=
  let s1 := upd s pi (set_not_empty p) in
  match lookup nm ms with
  | Some i => deref (disp_of p) (ROk (push s1 (pi ++ [Mem i])%list))
  | None =>
      if ign then deref (disp_of p) (ROk (push s1 (pi ++ [Ign])%list))
      else RThrow (XStd ("Unexpected member " ++ fmt nm)) s1
  end.

Definition throw_unexpected (t : token) (s : mstate) : res := RThrow (unexpected_token t) s.

(** Ignore::on: internals/ignore.cpp:34-90; on(NullT) is not overridden. *)
Definition on_ign (pi : path) (i : igst) (t : token) (s : mstate) : res :=
  match t with
  | TNull => on_null pi (PIgn i) s
  | TSc _ => match ig_st i with [] => rec (CEnd pi) s | _ => ROk s end
  | TMapStart => ROk (upd s pi (PIgn (mkI (ig_b i) (StObj :: ig_st i))))
  | TArrStart => ROk (upd s pi (PIgn (mkI (ig_b i) (StArr :: ig_st i))))
  | TKey _ =>
      match ig_st i with StObj :: _ => ROk s | _ => throw_unexpected t s end
  | TMapEnd =>
      match ig_st i with
      | StObj :: r =>
          let s1 := upd s pi (PIgn (mkI (ig_b i) r)) in
          match r with [] => rec (CEnd pi) s1 | _ => ROk s1 end
      | _ => throw_unexpected t s
      end
  | TArrEnd =>
      match ig_st i with
      | StArr :: r =>
          let s1 := upd s pi (PIgn (mkI (ig_b i) r)) in
          match r with [] => rec (CEnd pi) s1 | _ => ROk s1 end
      | _ => throw_unexpected t s
      end
  end.

(** Value::on value.cpp:60-64; everything else TokenParser::on
    internals/token_parser.cpp:47-89. *)
Definition on_val (pi : path) (p : parser) (t : token) (s : mstate) : res :=
  match p, t with
  | PVal _ _ _ _, TNull => on_null pi p s
  | PVal b ty v cb, TSc x =>
      if takes_scalar ty x then
        rec (CEnd pi) (upd s pi (PVal (mkB (b_disp b) (b_set b) false) ty (VSc x) cb))
      else throw_unexpected t s
  | _, _ => throw_unexpected t s
  end.

(** A started array hands the beginning of a compound element over:
    internals/array_parser.cpp:83-86 and 96-99. *)
Definition arr_enter (pi : path) (p : parser) (t : token) (s : mstate) : res :=
  match p with
  | PArr b sd st vals e cb =>
      let s1 := upd s pi (set_not_empty (PArr b sd st vals (set_disp (b_disp b) e) cb)) in
      deref (b_disp b)
            (rec (COn (pi ++ [Elem])%list t) (push s1 (pi ++ [Elem])%list))
  | _ => RUB BadPointer
  end.

(** ArrayParser::on: internals/array_parser.cpp:35-105. *)
Definition on_arr (pi : path) (p : parser) (t : token) (s : mstate) : res :=
  match p with
  | PArr b sd st vals e cb =>
      match t with
      | TNull =>
          if sd then rec (COn (pi ++ [Elem])%list TNull) s else on_null pi p s
      | TSc _ =>
          if sd then
            bind (rec (COn (pi ++ [Elem])%list t) s) (fun s1 =>
            at_node s1 pi (fun p1 =>
            rec (CChild pi) (upd s1 pi (set_not_empty p1))))
          else throw_unexpected t s
      | TMapStart => if sd then arr_enter pi p t s else throw_unexpected t s
      | TArrStart =>
          if sd then arr_enter pi p t s
          else
            match reset p with
            | PArr b sd st vals e cb => ROk (upd s pi (PArr b true st vals e cb))
            | _ => RUB BadPointer
            end
      | TArrEnd => rec (CEnd pi) (upd s pi (PArr b false st vals e cb))
      | TKey _ | TMapEnd => throw_unexpected t s
      end
  | _ => RUB BadPointer
  end.

(** Map::on: map.h:220-232. *)
Definition on_map (pi : path) (p : parser) (t : token) (s : mstate) : res :=
  match p with
  | PMap b st key vals e ecb cb =>
      match t with
      | TNull => on_null pi p s
      | TMapStart => ROk (upd s pi (reset p))
      | TKey k =>
          deref (b_disp b)
                (ROk (push (upd s pi (set_not_empty (PMap b st k vals e ecb cb)))
                           (pi ++ [Elem])%list))
      | TMapEnd => rec (CEnd pi) s
      | _ => throw_unexpected t s
      end
  | _ => RUB BadPointer
  end.

(** KeyValueParser::on internals/key_value_parser.h:221-229 and Object::on
    object.h:254-256. *)
Definition on_obj (pi : path) (p : parser) (t : token) (s : mstate) : res :=
  match p with
  | PObj b k v ms ig ign cb =>
      match t with
      | TNull => on_null pi p s
      | TMapStart => ROk (upd s pi (reset p))
      | TKey key => on_member pi p ms ign (SStr key) s
      | TMapEnd => rec (CEnd pi) s
      | _ => throw_unexpected t s
      end
  | _ => RUB BadPointer
  end.

(** Union::on union.h:312-338, MapEnd from KeyValueParser.  The union's own
    options are the default ones (union.h:255), so an unknown type is an error;
    _current_member_id is looked up from the pushed member (union.h:315). *)
Definition on_uni (pi : path) (p : parser) (t : token) (s : mstate) : res :=
  match p with
  | PUni b st v ty tm cur ms ig cb =>
      match t with
      | TNull => on_null pi p s
      | TSc x =>
          if takes_scalar ty x then
            let p1 := reset p in
            bind (on_member pi p1 ms false x (upd s pi p1)) (fun s2 =>
            at_node s2 pi (fun p2 =>
            match p2, lookup x ms with
            | PUni b st v ty tm _ ms ig cb, Some i =>
                ROk (upd s2 pi (PUni b st v ty tm i ms ig cb))
            | _, _ => ROk s2
            end))
          else throw_unexpected t s
      | TMapStart =>
          if String.eqb tm "" then RThrow (XStd e_emb_union) s
          else ROk (upd s pi (reset p))
      | TKey k =>
          if String.eqb tm "" then RThrow (XStd e_emb_union) s
          else if String.eqb k tm then ROk s
          else RThrow (XStd ("Unexpected member " ++ k)) s
      | TMapEnd => rec (CEnd pi) s
      | TArrStart | TArrEnd => throw_unexpected t s
      end
  | _ => RUB BadPointer
  end.

(** Virtual dispatch of [on()]. *)
Definition body_on (pi : path) (t : token) (s : mstate) : res :=
  at_node s pi (fun p =>
  match p with
  | PVal _ _ _ _ => on_val pi p t s
  | PArr _ _ _ _ _ _ => on_arr pi p t s
  | PMap _ _ _ _ _ _ _ => on_map pi p t s
  | PObj _ _ _ _ _ _ _ => on_obj pi p t s
  | PUni _ _ _ _ _ _ _ _ _ => on_uni pi p t s
  | PIgn i => on_ign pi i t s
  end).

Definition call_body (c : call) (s : mstate) : res :=
  match c with
  | CPop => body_pop s
  | CDisp t => body_disp t s
  | COn pi t => body_on pi t s
  | CEnd pi => body_end pi s
  | CChild pi => body_child pi s
  end.
End Exec.

(** What a call through a dispatcher pointer can reach. *)
Definition live (g : nat) (d : option nat) (l : list mstate) : list mstate :=
  match d with Some x => if Nat.eqb x g then l else [] | None => [] end.

Lemma in_live g d l s : In s (live g d l) -> d = Some g /\ In s l.
Proof.
  unfold live. destruct d as [x|]; [|contradiction]. destruct (Nat.eqb x g) eqn:Hx; [|contradiction].
  apply Nat.eqb_eq in Hx. subst. auto.
Qed.

(** The states in which a failed allocation of the call itself leaves the parsers:
    - Value: the copy of a string, after setNotEmpty(), value.cpp:61-62;
    - arrays: pushParser(), after setNotEmpty() and setDispatcher(),
      internals/array_parser.cpp:83-85 and 96-98;
    - Map: pushParser(), after setNotEmpty(), or the copy of the key, after both,
      map.h:225-227;
    - objects: the key for the lookup, or pushParser(), after setNotEmpty(),
      internals/key_value_parser.h:233-237 and 247;
    - unions: the same after reset(), union.h:313-314, or the key for the lookup of
      the member id, after pushParser(), union.h:315;
    - Ignore: its _structure, before any change, internals/ignore.cpp:57,78.
    The other calls allocate nothing themselves: the dispatcher looks at its stack and
    pops it (internals/dispatcher.h:51-56, internals/dispatcher.cpp:38-47), tokens carry
    views of the text (yajl_parser.cpp:117, 127), and what the storing of a value
    allocates is in [FStore]. *)
Definition faults (g : nat) (c : call) (s : mstate) : list mstate :=
  match c with
  | COn pi t =>
      match get pi (m_root s), t with
      | Some (PVal b ty v cb), TSc x =>
          if takes_scalar ty x then [upd s pi (set_not_empty (PVal b ty v cb))] else []
      | Some (PArr b sd st vals e cb), (TMapStart | TArrStart) =>
          if sd then live g (b_disp b) [upd s pi (set_not_empty (PArr b sd st vals (set_disp (b_disp b) e) cb))] else []
      | Some (PMap b st key vals e ecb cb), TKey _ =>
          let s1 := upd s pi (set_not_empty (PMap b st key vals e ecb cb)) in
          live g (b_disp b) [s1; push s1 (pi ++ [Elem])%list]
      | Some (PObj b k v ms ig ign cb), TKey _ =>
          [upd s pi (set_not_empty (PObj b k v ms ig ign cb))]
      | Some (PUni b st v ty tm cur ms ig cb), TSc x =>
          let s1 := upd s pi (set_not_empty (reset (PUni b st v ty tm cur ms ig cb))) in
          if takes_scalar ty x then
          s1 :: match lookup x ms with
                | Some i => live g (b_disp b) [push s1 (pi ++ [Mem i])%list]
                | None => []
                end
          else []
      | Some (PIgn _), (TMapStart | TArrStart) => [s]
      | _, _ => []
      end
  | _ => []
  end.

(** All containers of values are full. *)
Definition store_fails (E : env) (x : exn) : env :=
  mkEnv (e_cb E) (e_fmt E) (fun _ => Some x) (e_alloc E).

(** One call, in the memory that is left. *)
Definition body (E : env) (g : nat) (rec : call -> mstate -> res) (c : call) (s : mstate) : res :=
  match e_alloc E c s with
  | None => call_body E g rec c s
  | Some (FAt k x) =>
      match nth_error (faults g c s) k with
      | Some s' => RThrow x s'
      | None => call_body E g rec c s
      end
  | Some (FStore x) => call_body (store_fails E x) g rec c s
  end.

(** No callback is told about it. *)
Lemma faults_log g c s s' : In s' (faults g c s) -> m_log s' = m_log s.
Proof.
  destruct c as [|t|pi t|pi|pi]; try contradiction. cbn [faults].
  destruct (get pi (m_root s)) as [[]|]; try contradiction; destruct t; try contradiction;
    repeat match goal with |- context [if ?x then _ else _] => destruct x | |- context [lookup ?a ?b] => destruct (lookup a b) end;
    unfold live; try destruct (b_disp b) as [d|]; try destruct (Nat.eqb d g); simpl; intuition (subst; reflexivity).
Qed.

(** Whatever holds in all of these cases. *)
Lemma body_cases (Q : res -> Prop) E g rec c s :
  (forall E', e_cb E' = e_cb E -> e_fmt E' = e_fmt E -> (forall v, e_store E' v = None -> e_store E v = None) ->
     Q (call_body E' g rec c s)) ->
  (forall x s', In s' (faults g c s) -> Q (RThrow x s')) ->
  Q (body E g rec c s).
Proof.
  intros H1 H2. unfold body. destruct (e_alloc E c s) as [[k x|x]|].
  - destruct (nth_error (faults g c s) k) eqn:Hk; [|apply H1; auto]. apply H2. eapply nth_error_In; eauto.
  - apply H1; try reflexivity. simpl. discriminate.
  - apply H1; auto.
Qed.

Fixpoint exec (E : env) (g : nat) (fuel : nat) (c : call) (s : mstate) : res :=
  match fuel with
  | O => RFuel
  | S f => body E g (exec E g f) c s
  end.

(** Nesting depth of a parser object. *)
Fixpoint height (p : parser) : nat :=
  match p with
  | PVal _ _ _ _ | PIgn _ => 1
  | PArr _ _ _ _ e _ => S (height e)
  | PMap _ _ _ _ e _ _ => S (height e)
  | PObj _ _ _ ms _ _ _ | PUni _ _ _ _ _ _ ms _ _ =>
      S (list_max (1 :: map (fun mp => height (snd mp)) ms))
  end.

(** Fuel for one token; Total.v proves it sufficient in every state. *)
Definition fuel_for (s : mstate) : nat :=
  5 * List.length (m_stack s) + 6 * height (m_root s) + 7.

(** Dispatcher::on, called by YajlParser::on (yajl_parser.h:146-157). *)
Definition dispatch (E : env) (g : nat) (t : token) (s : mstate) : res :=
  exec E g (fuel_for s) (CDisp t) s.

(** A sequence of tokens; the first exception stops it (yajl_parser.h:151,154:
    the callback returns 0 and yajl cancels). *)
Fixpoint run (E : env) (g : nat) (ts : list token) (s : mstate) : res :=
  match ts with
  | [] => ROk s
  | t :: ts' => bind (dispatch E g t s) (run E g ts')
  end.

(** ** Construction *)

Definition base0 : base := mkB None false true.
Definition ig0 : igst := mkI base0 [].

(** MemberParser's constructor, internals/key_value_parser.h:309-330: the base
    class for the later members is constructed first. *)
Fixpoint dup_check {A} (fmtd : spec_float -> string) (ms : list (mspec * A)) : option exn :=
  match ms with
  | [] => None
  | (m, _) :: r =>
      match dup_check fmtd r with
      | Some e => Some e
      | None =>
          if existsb (fun mp => name_eqb (m_name (fst mp)) (m_name m)) r
          then Some (XStd ("Member " ++ out_name fmtd (m_name m)
                           ++ " appears more, than once"))
          else None
      end
  end.

Fixpoint dflt_s (s : schema) : value :=
  match s with
  | SVal t _ => VSc (dflt_sc t)
  | SArr _ _ _ => VVec []
  | SMp _ _ _ _ => VMap []
  | SObj OAuto ms _ _ => VTup (map (fun mp => dflt_s (snd mp)) ms)
  | SObj OCustom _ _ _ => VCust None
  | SObj OPlain _ _ _ => VTup []
  | SUni _ _ _ (mp :: _) _ => VVar 0 (dflt_s (snd mp))
  | SUni _ _ _ [] _ => VVar 0 (VTup [])
  | SIgn => VTup []
  end.

(** The object a declaration constructs, if no constructor throws: value.cpp:29,
    array.h:116, s_array.h:147, map.h:165, s_map.h:193, object.h:229,
    s_auto_object.h:204, s_custom_object.h:251, union.h:252, s_union.h:231,
    internals/key_value_parser.h:171.  (Value<std::string> default-constructs the
    string; the tuple/variant/user value of the storing object parsers is
    value-initialised: observable only for SCustomObject, whose ValueType must
    have a default constructor, s_custom_object.h:45.) *)
Fixpoint mk (s : schema) : parser :=
  match s with
  | SVal t cb => PVal base0 t (VSc (dflt_sc t)) cb
  | SArr st e cb => PArr base0 false st [] (mk e) cb
  | SMp st e ecb cb => PMap base0 st "" [] (mk e) ecb cb
  | SObj k ms ign cb =>
      PObj base0 k (dflt_s s) (map (fun mp => (fst mp, mk (snd mp))) ms) ig0 ign cb
  | SUni st t tm ms cb =>
      PUni base0 st (dflt_s s) t tm 0 (map (fun mp => (fst mp, mk (snd mp))) ms) ig0 cb
  | SIgn => PIgn ig0
  end.

(** The exception thrown while constructing a declaration, if any: members are
    constructed before the object that holds them, left to right (they are
    elements of a braced list, e.g. the std::tuple of Readme.md's example). *)
Fixpoint ctor_exn (fmtd : spec_float -> string) (s : schema) : option exn :=
  let fix first (ms : list (mspec * schema)) : option exn :=
    match ms with
    | [] => None
    | (_, c) :: r =>
        match ctor_exn fmtd c with Some e => Some e | None => first r end
    end in
  match s with
  | SVal _ _ | SIgn => None
  | SArr _ e _ | SMp _ e _ _ => ctor_exn fmtd e
  | SObj _ ms _ _ | SUni _ _ _ ms _ =>
      match first ms with Some e => Some e | None => dup_check fmtd ms end
  end.

Definition build (fmtd : spec_float -> string) (s : schema) : exn + parser :=
  match ctor_exn fmtd s with Some e => inl e | None => inr (mk s) end.

(** Dispatcher's constructor: internals/dispatcher.cpp:29-32. *)
Definition attach (g : nat) (p : parser) (l : list event) : mstate :=
  mkS (set_disp (Some g) p) [[]] l.

(** Dispatcher::reset: internals/dispatcher.cpp:53-56. *)
Definition dispatcher_reset (s : mstate) : mstate := set_stack s [[]].

(** Dispatcher::emptyParsersStack: internals/dispatcher.cpp:49-51. *)
Definition empty_stack (s : mstate) : bool :=
  match m_stack s with [] => true | _ => false end.
