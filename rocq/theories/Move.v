(** Parser objects with their addresses: construction from sub-parsers, move
    construction and move assignment, and the lookup tables that hold pointers.

    [Model.v] treats a declaration as a tree and a pointer as a path in it.  This
    file models the pointers themselves: where an object lives, what
    ArrayParser::_parser_ptr, KeyValueParser::_parsers_array,
    KeyValueParser::_parsers_map and Union::_members_ids_map contain, and what the
    constructors, move constructors and move assignments do to them.

    Citations are relative to /repo/library/sjparser. *)

From Verif Require Import Spec Model Infra Access.
Local Open Scope string_scope.
Set Implicit Arguments.

(** ** Memory *)

(** The address of a parser object: a complete object (a variable or a temporary,
    identified by a number) and the sub-object of it: member [n] of an object or
    union parser (internals/key_value_parser.h:150), or 0 for the element parser of
    an array or map (array.h:102, map.h:142). *)
Definition place := (nat * list nat)%type.
Definition sub (a : place) (i : nat) : place := (fst a, (snd a ++ [i])%list).

(** [ParserT parser;] (internals/key_value_parser.h:150): the parser itself, or, if
    ParserT is an lvalue reference, a reference to a parser elsewhere. *)
Inductive slot (A : Type) := Own (o : A) | Ref (a : place).
Arguments Own {A}. Arguments Ref {A}.

Definition slot_place {A} (a : place) (s : slot A) : place :=
  match s with Own _ => a | Ref b => b end.

(** Keys of _parsers_map (internals/key_value_parser.h:162): InternalNameType is
    std::string_view for std::string names (internals/token_parser.h:45-47), i.e. a
    pointer to the bytes of [name] of member [i] of the object at [a]; [txt]: the
    bytes when the key was made.  For other names it is a copy. *)
Inductive key := KView (a : place) (i : nat) (txt : scalar) | KCopy (x : scalar).

Definition key_text (k : key) : scalar := match k with KView _ _ t => t | KCopy x => x end.

Definition key_of (a : place) (i : nat) (nm : scalar) : key :=
  match nm with SStr _ => KView a i nm | _ => KCopy nm end.

(** _parsers_array and _parsers_map (internals/key_value_parser.h:161-162); an array
    element that was not written is None. *)
Record tables := mkT {
  t_arr : nat -> option place;
  t_map : list (key * place)
}.

Definition no_tables : tables := mkT (fun _ => None) [].

(** unordered_map::find. *)
Fixpoint find_key (nm : scalar) (l : list (key * place)) : option place :=
  match l with
  | [] => None
  | (k, p) :: r => if name_eqb (key_text k) nm then Some p else find_key nm r
  end.

(** unordered_map::operator[] and assignment: an equal key that is already there
    stays (the key object is not replaced), only its value is written. *)
Definition map_put (k : key) (p : place) (l : list (key * place)) : list (key * place) :=
  match find_key (key_text k) l with
  | None => (k, p) :: l
  | Some _ =>
      map (fun e => if name_eqb (key_text (fst e)) (key_text k) then (fst e, p) else e) l
  end.

(** unordered_map::insert: None = not inserted. *)
Definition map_ins (k : key) (p : place) (l : list (key * place)) : option (list (key * place)) :=
  match find_key (key_text k) l with Some _ => None | None => Some ((k, p) :: l)%list end.

Definition arr_put (i : nat) (p : place) (f : nat -> option place) : nat -> option place :=
  fun j => if Nat.eqb j i then Some p else f j.

(** _members_ids_map (union.h:237); the last write of a key counts. *)
Definition place_eqb (a b : place) : bool :=
  Nat.eqb (fst a) (fst b) && if list_eq_dec Nat.eq_dec (snd a) (snd b) then true else false.

Fixpoint find_id (p : place) (l : list (place * nat)) : option nat :=
  match l with
  | [] => None
  | (q, i) :: r => if place_eqb q p then Some i else find_id p r
  end.

(** ** Objects: the fields of [Model.parser], and the pointers *)
Inductive pobj :=
| XVal (b : base) (t : vtype) (v : value) (cb : option cbid)
| XArr (b : base) (started store : bool) (vals : list value) (ptr : option place)
       (e : slot pobj) (cb : option cbid)
| XMap (b : base) (store : bool) (key : string) (vals : list (string * value))
       (e : slot pobj) (ecb cb : option cbid)
| XObj (b : base) (k : okind) (v : value) (tb : tables) (ms : list (mspec * slot pobj))
       (ig : igst) (ign : bool) (cb : option cbid)
| XUni (b : base) (store : bool) (v : value) (t : vtype) (tm : string) (cur : nat)
       (tb : tables) (ids : list (place * nat)) (ms : list (mspec * slot pobj))
       (ig : igst) (cb : option cbid).

(** MemberParser::registerParsers, internals/key_value_parser.h:357-367 (the later
    members first), for the members [i], [i+1], ... of the object at [a]. *)
Fixpoint register (a : place) (i : nat) (ms : list (mspec * slot pobj)) (tb : tables) : tables :=
  match ms with
  | [] => tb
  | (m, s) :: r =>
      let tb1 := register a (S i) r tb in
      mkT (arr_put i (slot_place (sub a i) s) (t_arr tb1))
          (map_put (key_of a i (m_name m)) (slot_place (sub a i) s) (t_map tb1))
  end.

(** The table part of MemberParser's constructor, internals/key_value_parser.h:320-329
    (the later members first); None: it throws. *)
Fixpoint new_tables (a : place) (i : nat) (ms : list (mspec * slot pobj)) : option tables :=
  match ms with
  | [] => Some no_tables
  | (m, s) :: r =>
      match new_tables a (S i) r with
      | None => None
      | Some tb1 =>
          match map_ins (key_of a i (m_name m)) (slot_place (sub a i) s) (t_map tb1) with
          | None => None
          | Some mp => Some (mkT (arr_put i (slot_place (sub a i) s) (t_arr tb1)) mp)
          end
      end
  end.

(** Union::setupIdsMap, union.h:284-292: clear, then one write per element of the
    array. *)
Fixpoint ids_from (arr : nat -> option place) (i n : nat) (acc : list (place * nat))
  : list (place * nat) :=
  match n with
  | O => acc
  | S n' =>
      ids_from arr (S i) n'
               (match arr i with Some p => (p, i) :: acc | None => acc end)%list
  end.

Definition setup_ids (tb : tables) (n : nat) : list (place * nat) := ids_from (t_arr tb) 0 n [].

(** The members of an object, one by one: MemberParser's move constructor
    (internals/key_value_parser.h:332-340) ... *)
Section Members.
Variable f : place -> pobj -> pobj.
Variable a : place.
Fixpoint mapi_members (i : nat) (ms : list (mspec * slot pobj)) : list (mspec * slot pobj) :=
  match ms with
  | [] => []
  | (m, s) :: r =>
      (m, match s with Own x => Own (f (sub a i) x) | Ref p => Ref p end) :: mapi_members (S i) r
  end.
End Members.

(** ... and move assignment (internals/key_value_parser.h:342-355). *)
Section Members2.
Variable f : place -> pobj -> pobj -> option pobj.
Variable a : place.
Fixpoint mapi2_members (i : nat) (ds ms : list (mspec * slot pobj)) {struct ms}
  : option (list (mspec * slot pobj)) :=
  match ds, ms with
  | [], [] => Some []
  | (_, Own x) :: dr, (m, Own y) :: r =>
      match f (sub a i) x y, mapi2_members (S i) dr r with
      | Some z, Some r' => Some ((m, Own z) :: r')
      | _, _ => None
      end
  | _, _ => None
  end.
End Members2.

(** ** Move construction *)

(** The new object, made at [a] from [o]:
    - Value value.cpp:40-44 (and TokenParser's defaulted one,
      internals/token_parser.h:81: the dispatcher pointer and the flags are copied);
    - Array array.h:125-131, SArray s_array.h:156-160: _started is copied by the
      defaulted ArrayParser(ArrayParser&&), the pointer is set to the own element
      parser;
    - Map map.h:178-183 and SMap s_map.h:204-209: _current_key is not moved;
    - KeyValueParser internals/key_value_parser.h:176-184 with MemberParser
      332-340, and Object object.h:237-239, SAutoObject s_auto_object.h:213-217,
      SCustomObject s_custom_object.h:261-265, Union union.h:263-270, SUnion
      s_union.h:237-241.
    A reference member is bound to the same parser
    ([std::forward<ParserT>(other.parser)]). *)
Fixpoint move (a : place) (o : pobj) {struct o} : pobj :=
  match o with
  | XVal b t v cb => XVal b t v cb
  | XArr b sd st vals _ e cb =>
      let e' := match e with Own x => Own (move (sub a 0) x) | Ref p => Ref p end in
      XArr b sd st vals (Some (slot_place (sub a 0) e')) e' cb
  | XMap b st _ vals e ecb cb =>
      let e' := match e with Own x => Own (move (sub a 0) x) | Ref p => Ref p end in
      XMap b st "" vals e' ecb cb
  | XObj b k v _ ms ig ign cb =>
      let ms' := mapi_members move a 0 ms in
      XObj b k v (register a 0 ms' no_tables) ms' ig ign cb
  | XUni b st v t tm cur _ _ ms ig cb =>
      let ms' := mapi_members move a 0 ms in
      let tb := register a 0 ms' no_tables in
      XUni b st v t tm cur tb (setup_ids tb (List.length ms')) ms' ig cb
  end.

Definition moves (a : place) := mapi_members move a.

(** ** Move assignment *)

Definition okind_eqb (a b : okind) : bool :=
  match a, b with
  | OPlain, OPlain | OAuto, OAuto | OCustom, OCustom => true
  | _, _ => false
  end.

(** [d = std::move(s)] for the object at [a]; None: it does not compile (a
    reference member has no move assignment, the classes differ):
    - Value value.cpp:46-53;
    - Array array.h:133-141, SArray s_array.h:162-169;
    - Map map.h:185-193, SMap s_map.h:211-219;
    - KeyValueParser internals/key_value_parser.h:186-197 with MemberParser 342-355,
      Object object.h:241-247, SAutoObject s_auto_object.h:219-227, SCustomObject
      s_custom_object.h:267-275, Union union.h:272-282, SUnion s_union.h:243-251.
    KeyValueParser's operator= clears _parsers_map, but not _parsers_array. *)
Fixpoint assign (a : place) (d s : pobj) {struct s} : option pobj :=
  match d, s with
  | XVal _ t0 _ _, XVal b t v cb => if vtype_eqb t0 t then Some (XVal b t v cb) else None
  | XArr _ _ st0 _ _ (Own x) _, XArr b sd st vals _ (Own y) cb =>
      if Bool.eqb st0 st then
        match assign (sub a 0) x y with
        | Some z => Some (XArr b sd st vals (Some (sub a 0)) (Own z) cb)
        | None => None
        end
      else None
  | XMap _ st0 key _ (Own x) _ _, XMap b st _ vals (Own y) ecb cb =>
      if Bool.eqb st0 st then
        match assign (sub a 0) x y with
        | Some z => Some (XMap b st key vals (Own z) ecb cb)
        | None => None
        end
      else None
  | XObj _ k0 _ tb0 ds _ _ _, XObj b k v _ ms ig ign cb =>
      if okind_eqb k0 k then
        match mapi2_members assign a 0 ds ms with
        | Some ms' => Some (XObj b k v (register a 0 ms' (mkT (t_arr tb0) [])) ms' ig ign cb)
        | None => None
        end
      else None
  | XUni _ st0 _ t0 _ _ tb0 _ ds _ _, XUni b st v t tm cur _ _ ms ig cb =>
      if Bool.eqb st0 st && vtype_eqb t0 t then
        match mapi2_members assign a 0 ds ms with
        | Some ms' =>
            let tb := register a 0 ms' (mkT (t_arr tb0) []) in
            Some (XUni b st v t tm cur tb (setup_ids tb (List.length ms')) ms' ig cb)
        | None => None
        end
      else None
  | _, _ => None
  end.

Definition assigns (a : place) := mapi2_members assign a.

(** ** Sub-objects *)
Definition kid (o : pobj) (i : nat) : option pobj :=
  match o with
  | XVal _ _ _ _ => None
  | XArr _ _ _ _ _ (Own x) _ | XMap _ _ _ _ (Own x) _ _ => if Nat.eqb i 0 then Some x else None
  | XArr _ _ _ _ _ (Ref _) _ | XMap _ _ _ _ (Ref _) _ _ => None
  | XObj _ _ _ _ ms _ _ _ | XUni _ _ _ _ _ _ _ _ ms _ _ =>
      match nth_error ms i with Some (_, Own x) => Some x | _ => None end
  end.

Definition set_kid (o : pobj) (i : nat) (x : pobj) : pobj :=
  match o with
  | XVal b t v cb => XVal b t v cb
  | XArr b sd st vals ptr _ cb => XArr b sd st vals ptr (Own x) cb
  | XMap b st key vals _ ecb cb => XMap b st key vals (Own x) ecb cb
  | XObj b k v tb ms ig ign cb =>
      XObj b k v tb
           match nth_error ms i with Some (m, _) => set_nth i (m, Own x) ms | None => ms end
           ig ign cb
  | XUni b st v t tm cur tb ids ms ig cb =>
      XUni b st v t tm cur tb ids
           match nth_error ms i with Some (m, _) => set_nth i (m, Own x) ms | None => ms end
           ig cb
  end.

(** The parser object at a path inside [o]. *)
Fixpoint inside (l : list nat) (o : pobj) : option pobj :=
  match l with
  | [] => Some o
  | i :: l' => match kid o i with Some c => inside l' c | None => None end
  end.

Fixpoint replace (l : list nat) (x o : pobj) : pobj :=
  match l with
  | [] => x
  | i :: l' => match kid o i with Some c => set_kid o i (replace l' x c) | None => o end
  end.

(** The state of a parser, without the pointers: what [Model.v] is about.  [rd]: the
    parsers that reference members refer to. *)
Fixpoint state (rd : place -> parser) (o : pobj) : parser :=
  match o with
  | XVal b t v cb => PVal b t v cb
  | XArr b sd st vals _ e cb =>
      PArr b sd st vals (match e with Own x => state rd x | Ref p => rd p end) cb
  | XMap b st key vals e ecb cb =>
      PMap b st key vals (match e with Own x => state rd x | Ref p => rd p end) ecb cb
  | XObj b k v _ ms ig ign cb =>
      PObj b k v
           (map (fun mp => (fst mp, match snd mp with Own x => state rd x | Ref p => rd p end)) ms)
           ig ign cb
  | XUni b st v t tm cur _ _ ms ig cb =>
      PUni b st v t tm cur
           (map (fun mp => (fst mp, match snd mp with Own x => state rd x | Ref p => rd p end)) ms)
           ig cb
  end.

(** ** What a program does with parser objects *)

(** Complete objects; [false]: moved from. *)
Definition objects := nat -> option (bool * pobj).
Definition mem_set (m : objects) (id : nat) (x : bool * pobj) : objects :=
  fun j => if Nat.eqb j id then Some x else m j.

(** A sub-parser handed to a constructor: an rvalue (the complete object [id], which
    is moved from) or an lvalue. *)
Inductive arg := AMove (id : nat) | ARef (p : place).

(** Binding it to the new object's sub-parser at [a]. *)
Inductive take (m : objects) (a : place) : arg -> slot pobj -> objects -> Prop :=
| take_move id o : m id = Some (true, o) ->
    take m a (AMove id) (Own (move a o)) (mem_set m id (false, o))
| take_ref p : take m a (ARef p) (Ref p) m.

(** The members of a new object, later members first
    (internals/key_value_parser.h:316-318). *)
Inductive takes (m : objects) (a : place) : nat -> list (mspec * arg) -> list (mspec * slot pobj) -> objects -> Prop :=
| takes_nil i : takes m a i [] [] m
| takes_cons i ms x r s r' m1 m2 :
    takes m a (S i) r r' m1 -> take m1 (sub a i) x s m2 ->
    takes m a i ((ms, x) :: r) ((ms, s) :: r') m2.

(** Everything but the pointers is forgotten: what parsing cannot change. *)
Fixpoint pointers (o : pobj) : pobj :=
  match o with
  | XVal _ t _ _ => XVal base0 t (VTup []) None
  | XArr _ _ st _ ptr e _ =>
      XArr base0 false st [] ptr (match e with Own x => Own (pointers x) | Ref p => Ref p end) None
  | XMap _ st _ _ e _ _ =>
      XMap base0 st "" [] (match e with Own x => Own (pointers x) | Ref p => Ref p end) None None
  | XObj _ k _ tb ms _ ign _ =>
      XObj base0 k (VTup []) tb
           (map (fun mp => (fst mp, match snd mp with Own x => Own (pointers x) | Ref p => Ref p end)) ms)
           ig0 ign None
  | XUni _ st _ t tm _ tb ids ms _ _ =>
      XUni base0 st (VTup []) t tm 0 tb ids
           (map (fun mp => (fst mp, match snd mp with Own x => Own (pointers x) | Ref p => Ref p end)) ms)
           ig0 None
  end.

(** New (complete) objects at [id]: the constructors value.cpp:28-38, array.h:114-123,
    s_array.h:147, map.h:156-176, s_map.h:193, internals/key_value_parser.h:171-175
    with object.h:229, s_auto_object.h:204, s_custom_object.h:251, union.h:242-261,
    s_union.h:231.  [v]: the value-initialised ValueType ([rd]: the types of the
    referenced members).  The braced Member and std::tuple temporaries
    (member.h:151-187) in between are not listed: [move_move] shows that further
    moves on the way change nothing.  A constructor whose [new_tables] is None throws
    and makes no object. *)
Inductive make (m : objects) (id : nat) : pobj -> objects -> Prop :=
| make_val t cb : make m id (XVal base0 t (VSc (dflt_sc t)) cb) m
| make_arr st x e cb m1 :
    take m (id, [0]) x e m1 ->
    make m id (XArr base0 false st [] (Some (slot_place (id, [0]) e)) e cb) m1
| make_map st x e ecb cb m1 :
    take m (id, [0]) x e m1 ->
    make m id (XMap base0 st "" [] e ecb cb) m1
| make_obj k xs ms v tb ign cb m1 rd :
    takes m (id, []) 0 xs ms m1 -> new_tables (id, []) 0 ms = Some tb ->
    v = dflt (state rd (XObj base0 k (VTup []) tb ms ig0 ign cb)) ->
    make m id (XObj base0 k v tb ms ig0 ign cb) m1
| make_uni st v t tm xs ms tb cb m1 rd :
    takes m (id, []) 0 xs ms m1 -> new_tables (id, []) 0 ms = Some tb ->
    v = dflt (state rd (XUni base0 st (VTup []) t tm 0 tb [] ms ig0 cb)) ->
    make m id (XUni base0 st v t tm 0 tb (setup_ids tb (List.length ms)) ms ig0 cb) m1.

(** One step of a program.  [p_use] (if [uses]): any use of the object for parsing,
    its getters and setters; they do not write pointers. *)
Inductive pstep (uses : bool) (m : objects) : objects -> Prop :=
| p_make id o m1 : m id = None -> make m id o m1 -> m1 id = None ->
    pstep uses m (mem_set m1 id (true, o))
| p_move id src o : m id = None -> m src = Some (true, o) ->
    pstep uses m (mem_set (mem_set m src (false, o)) id (true, move (id, []) o))
| p_assign id l live d x src o y :
    id <> src -> m id = Some (live, d) -> m src = Some (true, o) ->
    inside l d = Some x -> assign (id, l) x o = Some y ->
    pstep uses m (mem_set (mem_set m src (false, o)) id
                     (match l with [] => true | _ => live end, replace l y d))
| p_use id o o' : uses = true -> m id = Some (true, o) -> pointers o' = pointers o ->
    pstep uses m (mem_set m id (true, o'))
| p_destroy id : pstep uses m (fun j => if Nat.eqb j id then None else m j).

Inductive program (uses : bool) : objects -> Prop :=
| pr_start : program uses (fun _ => None)
| pr_step m m' : program uses m -> pstep uses m m' -> program uses m'.

(** ** Specification of the tables *)

(** Where member [i] of the object at [a] is. *)
Definition member_place (a : place) (ms : list (mspec * slot pobj)) (i : nat) : option place :=
  option_map (fun mp => slot_place (sub a i) (snd mp)) (nth_error ms i).

(** A key of _parsers_map points to the name of an own member, which has not
    changed since. *)
Definition valid_key (a : place) (ms : list (mspec * slot pobj)) (k : key) : Prop :=
  match k with
  | KCopy _ => True
  | KView b i txt => b = a /\ exists m s, nth_error ms i = Some (m, s) /\ m_name m = txt
  end.

(** The tables of the object at [a]: any name finds the own member of that name, and
    nothing else; no key dangles; the array lists the members. *)
Definition registered (a : place) (ms : list (mspec * slot pobj)) (tb : tables) : Prop :=
  (forall nm, find_key nm (t_map tb) =
              match index_of nm ms with Some i => member_place a ms i | None => None end) /\
  (forall k p, In (k, p) (t_map tb) -> valid_key a ms k) /\
  (forall i, i < List.length ms -> t_arr tb i = member_place a ms i).

(** Union ids: the index of the member (if no other member is the same parser). *)
Definition numbered (a : place) (ms : list (mspec * slot pobj)) (ids : list (place * nat)) : Prop :=
  forall i p, member_place a ms i = Some p ->
    (forall j, member_place a ms j = Some p -> j = i) -> find_id p ids = Some i.

(** All pointers of the object at [a]. *)
Definition here (a : place) (o : pobj) : Prop :=
  match o with
  | XVal _ _ _ _ | XMap _ _ _ _ _ _ _ => True
  | XArr _ _ _ _ ptr e _ => ptr = Some (slot_place (sub a 0) e)
  | XObj _ _ _ tb ms _ _ _ => registered a ms tb
  | XUni _ _ _ _ _ _ tb ids ms _ _ => registered a ms tb /\ numbered a ms ids
  end.

(** The names of an object's members are different. *)
Fixpoint distinct {A} (ms : list (mspec * A)) : Prop :=
  match ms with
  | [] => True
  | (m, _) :: r =>
      existsb (fun mp => sc_eqb (m_name (fst mp)) (m_name m)) r = false /\ distinct r
  end.

Definition names_differ (o : pobj) : Prop :=
  match o with
  | XObj _ _ _ _ ms _ _ _ | XUni _ _ _ _ _ _ _ _ ms _ _ => distinct ms
  | _ => True
  end.

(** Everything inside the object at [a] is right. *)
Definition sound (a : place) (o : pobj) : Prop :=
  forall l q, inside l o = Some q -> here (fst a, (snd a ++ l)%list) q /\ names_differ q.

(** ** Proofs *)

Section Ind.
Variable Q : pobj -> Prop.
Definition Qs (s : slot pobj) : Prop := match s with Own x => Q x | Ref _ => True end.
Hypothesis Hval : forall b t v cb, Q (XVal b t v cb).
Hypothesis Harr : forall b sd st vals ptr e cb, Qs e -> Q (XArr b sd st vals ptr e cb).
Hypothesis Hmap : forall b st key vals e ecb cb, Qs e -> Q (XMap b st key vals e ecb cb).
Hypothesis Hobj : forall b k v tb ms ig ign cb, Forall (fun mp => Qs (snd mp)) ms -> Q (XObj b k v tb ms ig ign cb).
Hypothesis Huni : forall b st v t tm cur tb ids ms ig cb, Forall (fun mp => Qs (snd mp)) ms ->
  Q (XUni b st v t tm cur tb ids ms ig cb).

Fixpoint pobj_ind' (o : pobj) : Q o :=
  let one (s : slot pobj) : Qs s := match s with Own x => pobj_ind' x | Ref _ => I end in
  let fix all (ms : list (mspec * slot pobj)) : Forall (fun mp => Qs (snd mp)) ms :=
    match ms with
    | [] => Forall_nil _
    | mp :: r => Forall_cons mp (match snd mp as s return Qs s with Own x => pobj_ind' x | Ref _ => I end) (all r)
    end in
  match o with
  | XVal b t v cb => Hval b t v cb
  | XArr b sd st vals ptr e cb =>
      Harr b sd st vals ptr _ cb (match e as s return Qs s with Own x => pobj_ind' x | Ref _ => I end)
  | XMap b st key vals e ecb cb =>
      Hmap b st key vals _ ecb cb (match e as s return Qs s with Own x => pobj_ind' x | Ref _ => I end)
  | XObj b k v tb ms ig ign cb => Hobj b k v tb ig ign cb (all ms)
  | XUni b st v t tm cur tb ids ms ig cb => Huni b st v t tm cur tb ids ig cb (all ms)
  end.
End Ind.

Definition mslot (a : place) (s : slot pobj) : slot pobj :=
  match s with Own x => Own (move a x) | Ref p => Ref p end.

Lemma move_obj a b k v tb ms ig ign cb :
  move a (XObj b k v tb ms ig ign cb) =
  XObj b k v (register a 0 (moves a 0 ms) no_tables) (moves a 0 ms) ig ign cb.
Proof. reflexivity. Qed.

Lemma move_uni a b st v t tm cur tb ids ms ig cb :
  move a (XUni b st v t tm cur tb ids ms ig cb) =
  XUni b st v t tm cur (register a 0 (moves a 0 ms) no_tables)
       (setup_ids (register a 0 (moves a 0 ms) no_tables) (List.length (moves a 0 ms))) (moves a 0 ms) ig cb.
Proof. reflexivity. Qed.

Lemma assign_obj a b0 k0 v0 tb0 ds ig0' ign0 cb0 b k v tb ms ig ign cb :
  assign a (XObj b0 k0 v0 tb0 ds ig0' ign0 cb0) (XObj b k v tb ms ig ign cb) =
  if okind_eqb k0 k then
  match assigns a 0 ds ms with
  | Some ms' => Some (XObj b k v (register a 0 ms' (mkT (t_arr tb0) [])) ms' ig ign cb)
  | None => None
  end else None.
Proof. reflexivity. Qed.

Lemma assign_uni a b0 st0 v0 t0 tm0 cur0 tb0 ids0 ds ig0' cb0 b st v t tm cur tb ids ms ig cb :
  assign a (XUni b0 st0 v0 t0 tm0 cur0 tb0 ids0 ds ig0' cb0) (XUni b st v t tm cur tb ids ms ig cb) =
  if Bool.eqb st0 st && vtype_eqb t0 t then
  match assigns a 0 ds ms with
  | Some ms' =>
      let tb := register a 0 ms' (mkT (t_arr tb0) []) in
      Some (XUni b st v t tm cur tb (setup_ids tb (List.length ms')) ms' ig cb)
  | None => None
  end else None.
Proof. reflexivity. Qed.

Lemma nth_moves a ms : forall i n,
  nth_error (moves a i ms) n =
  option_map (fun mp => (fst mp, mslot (sub a (i + n)) (snd mp))) (nth_error ms n).
Proof.
  induction ms as [|[m s] r IH]; intros i [|n]; simpl; auto.
  - rewrite Nat.add_0_r. destruct s; auto.
  - rewrite IH. replace (S i + n) with (i + S n) by lia. reflexivity.
Qed.

Lemma length_moves a ms : forall i, List.length (moves a i ms) = List.length ms.
Proof. induction ms as [|[m s] r IH]; intros i; simpl; auto. Qed.

(** *** The tables depend on the names and on what is a reference only *)
Definition skind {A} (s : slot A) : option place := match s with Own _ => None | Ref p => Some p end.
Definition kinds (ms : list (mspec * slot pobj)) : list (mspec * option place) :=
  map (fun mp => (fst mp, skind (snd mp))) ms.

Lemma nth_kinds ms ms' i m s : kinds ms = kinds ms' -> nth_error ms i = Some (m, s) ->
  exists s', nth_error ms' i = Some (m, s') /\ forall a, slot_place a s' = slot_place a s.
Proof.
  intros H Hn. assert (X : nth_error (kinds ms') i = Some (m, skind s)).
  { rewrite <- H. unfold kinds. rewrite nth_error_map, Hn. reflexivity. }
  unfold kinds in X. rewrite nth_error_map in X. destruct (nth_error ms' i) as [[m' s']|]; [|discriminate].
  simpl in X. injection X as -> E. exists s'. split; auto. intros a. destruct s, s'; simpl in *; congruence.
Qed.

Lemma kinds_index ms : forall ms' nm, kinds ms = kinds ms' -> index_of nm ms = index_of nm ms'.
Proof.
  induction ms as [|[m s] r IH]; intros [|[m' s'] r'] nm H; try discriminate; auto.
  simpl in *. injection H as -> _ H. rewrite (IH r'); auto.
Qed.

Lemma kinds_place a ms ms' i : kinds ms = kinds ms' -> member_place a ms i = member_place a ms' i.
Proof.
  intros H. unfold member_place.
  destruct (nth_error ms i) as [[m s]|] eqn:Hn.
  - destruct (nth_kinds ms ms' i H Hn) as (s' & Hn' & Hp). rewrite Hn'. simpl. rewrite Hp. auto.
  - destruct (nth_error ms' i) as [[m s]|] eqn:Hn'; auto.
    destruct (nth_kinds ms' ms i (eq_sym H) Hn') as (s' & X & _). congruence.
Qed.

Lemma kinds_length ms ms' : kinds ms = kinds ms' -> List.length ms = List.length ms'.
Proof. intros H. apply (f_equal (@List.length _)) in H. unfold kinds in H. rewrite !map_length in H. auto. Qed.

Lemma kinds_distinct ms : forall ms', kinds ms = kinds ms' -> distinct ms -> distinct ms'.
Proof.
  induction ms as [|[m s] r IH]; intros [|[m' s'] r'] H; try discriminate; auto.
  simpl in *. injection H as -> _ H. intros [H1 H2]. split; auto.
  rewrite <- H1. clear -H. revert r' H. induction r as [|[x y] r IH]; intros [|[x' y'] r'] H; try discriminate; auto.
  simpl in *. injection H as -> _ H. rewrite (IH r'); auto.
Qed.

Lemma kinds_registered a ms ms' tb : kinds ms = kinds ms' -> registered a ms tb -> registered a ms' tb.
Proof.
  intros H (H1 & H2 & H3). split; [|split].
  - intros nm. rewrite H1, (kinds_index ms ms' nm H). destruct (index_of nm ms'); auto. apply kinds_place; auto.
  - intros k p Hin. specialize (H2 k p Hin). destruct k as [b i txt|]; simpl in *; auto.
    destruct H2 as (-> & m & s & Hn & <-). split; auto.
    destruct (nth_kinds ms ms' i H Hn) as (s' & Hn' & _). eauto.
  - intros i Hi. rewrite <- (kinds_place a ms ms' i H). apply H3. rewrite (kinds_length ms ms' H). auto.
Qed.

Lemma kinds_numbered a ms ms' ids : kinds ms = kinds ms' -> numbered a ms ids -> numbered a ms' ids.
Proof.
  intros H Hn i p Hp Hu. rewrite <- (kinds_place a ms ms' i H) in Hp. apply Hn; auto.
  intros j Hj. apply Hu. rewrite <- (kinds_place a ms ms' j H). auto.
Qed.

Lemma kinds_moves a ms : forall i, kinds (moves a i ms) = kinds ms.
Proof. induction ms as [|[m s] r IH]; intros i; simpl; auto. rewrite IH. destruct s; auto. Qed.

Lemma kinds_assigns a ms : forall i ds ms', assigns a i ds ms = Some ms' -> kinds ms' = kinds ms.
Proof.
  induction ms as [|[m s] r IH]; intros i [|[d x] ds] ms' H; simpl in H; try discriminate; auto.
  - inversion H; auto.
  - destruct x; discriminate.
  - destruct x as [x|]; [|discriminate]. destruct s as [y|]; [|discriminate].
    destruct (assign (sub a i) x y) as [z|]; [|discriminate].
    destruct (assigns a (S i) ds r) as [r'|] eqn:E; [|discriminate].
    inversion H; subst. simpl. rewrite (IH _ _ _ E). auto.
Qed.

(** *** Registration *)
Lemma key_text_of a i nm : key_text (key_of a i nm) = nm.
Proof. destruct nm; auto. Qed.

(** The entries for the members [i], [i+1], ... *)
Fixpoint table (a : place) (i : nat) (ms : list (mspec * slot pobj)) : list (key * place) :=
  match ms with
  | [] => []
  | (m, s) :: r => (key_of a i (m_name m), slot_place (sub a i) s) :: table a (S i) r
  end.

Lemma find_table a nm ms : forall i,
  find_key nm (table a i ms) =
  match index_of nm ms with
  | Some n => option_map (fun mp => slot_place (sub a (i + n)) (snd mp)) (nth_error ms n)
  | None => None
  end.
Proof.
  induction ms as [|[m s] r IH]; intros i; simpl; auto.
  rewrite key_text_of, name_eqb_eq. destruct (sc_eqb (m_name m) nm); simpl; [rewrite Nat.add_0_r; auto|].
  rewrite IH. destruct (index_of nm r) as [n|]; auto. cbn [option_map nth_error].
  replace (i + S n) with (S i + n) by lia. reflexivity.
Qed.

Lemma index_none {A} nm (ms : list (mspec * A)) :
  existsb (fun mp => sc_eqb (m_name (fst mp)) nm) ms = false <-> index_of nm ms = None.
Proof.
  induction ms as [|[m s] r IH]; simpl; [tauto|].
  destruct (sc_eqb (m_name m) nm); simpl; [split; discriminate|].
  rewrite IH. destruct (index_of nm r); simpl; split; congruence.
Qed.

Lemma index_lt {A} nm (ms : list (mspec * A)) : forall n, index_of nm ms = Some n -> n < List.length ms.
Proof.
  induction ms as [|[m s] r IH]; intros n H; simpl in *; [discriminate|].
  destruct (sc_eqb (m_name m) nm); [inversion H; lia|].
  destruct (index_of nm r) as [k|]; inversion H; subst. specialize (IH k eq_refl). lia.
Qed.

Lemma find_table_none a nm ms i : find_key nm (table a i ms) = None <-> index_of nm ms = None.
Proof.
  rewrite find_table. destruct (index_of nm ms) as [n|] eqn:E; [|tauto].
  apply index_lt in E. apply nth_error_Some in E. destruct (nth_error ms n); simpl; [|tauto].
  split; discriminate.
Qed.

Lemma register_map a ms : forall i f, distinct ms -> t_map (register a i ms (mkT f [])) = table a i ms.
Proof.
  induction ms as [|[m s] r IH]; intros i f Hd; simpl in *; auto.
  destruct Hd as [H1 H2]. rewrite (IH (S i) f H2). unfold map_put. rewrite key_text_of.
  apply index_none in H1. apply (find_table_none a _ r (S i)) in H1. rewrite H1. auto.
Qed.

Lemma register_arr a ms : forall i tb j,
  t_arr (register a i ms tb) j =
  if Nat.leb i j && Nat.ltb j (i + List.length ms)
  then option_map (fun mp => slot_place (sub a j) (snd mp)) (nth_error ms (j - i))
  else t_arr tb j.
Proof.
  induction ms as [|[m s] r IH]; intros i tb j; simpl.
  - replace (Nat.leb i j && Nat.ltb j (i + 0)) with false; auto. symmetry.
    apply andb_false_iff. destruct (Nat.leb_spec i j); [right; apply Nat.ltb_ge; lia|left; auto].
  - unfold arr_put. destruct (Nat.eqb_spec j i) as [->|Hne].
    + rewrite Nat.leb_refl. replace (Nat.ltb i (i + S (List.length r))) with true
        by (symmetry; apply Nat.ltb_lt; lia). rewrite Nat.sub_diag. auto.
    + rewrite IH. destruct (Nat.leb_spec i j) as [Hl|Hl].
      * replace (Nat.leb (S i) j) with true by (symmetry; apply Nat.leb_le; lia).
        replace (S i + List.length r) with (i + S (List.length r)) by lia. simpl.
        destruct (Nat.ltb j (i + S (List.length r))); auto.
        replace (j - i) with (S (j - S i)) by lia. auto.
      * replace (Nat.leb (S i) j) with false by (symmetry; apply Nat.leb_gt; lia). auto.
Qed.

Lemma new_tables_some a ms : forall i tb, new_tables a i ms = Some tb ->
  distinct ms /\ tb = register a i ms no_tables.
Proof.
  induction ms as [|[m s] r IH]; intros i tb H; simpl in *.
  - inversion H; auto.
  - destruct (new_tables a (S i) r) as [tb1|] eqn:E; [|discriminate].
    destruct (IH _ _ E) as [Hd ->]. unfold map_ins in H. rewrite key_text_of in H.
    destruct (find_key (m_name m) (t_map (register a (S i) r no_tables))) eqn:F; [discriminate|].
    inversion H; subst. unfold map_put. rewrite key_text_of, F. split; auto. split; auto.
    unfold no_tables in F. rewrite (register_map a r (S i) _ Hd) in F.
    apply index_none. apply (find_table_none a _ r (S i)). auto.
Qed.

Lemma new_tables_distinct a ms : forall i, distinct ms -> new_tables a i ms = Some (register a i ms no_tables).
Proof.
  induction ms as [|[m s] r IH]; intros i H; simpl in *; auto.
  destruct H as [H1 H2]. rewrite (IH (S i) H2). unfold map_ins, map_put. rewrite key_text_of.
  assert (F : find_key (m_name m) (t_map (register a (S i) r no_tables)) = None).
  { unfold no_tables. rewrite (register_map a r (S i) _ H2). apply find_table_none, index_none; auto. }
  rewrite F. auto.
Qed.

(** A constructor throws exactly if [Model.dup_check] says so. *)
Lemma distinct_dup {A} f (ms : list (mspec * A)) : distinct ms <-> dup_check f ms = None.
Proof.
  induction ms as [|[m s] r IH]; simpl; [tauto|].
  rewrite IH. destruct (dup_check f r); [split; [intros [_ ?]|]; discriminate|].
  destruct (existsb _ r); split; auto; try discriminate. intros [? _]; discriminate.
Qed.

Lemma new_tables_dup a i f ms : new_tables a i ms = None <-> dup_check f ms <> None.
Proof.
  rewrite <- (distinct_dup f ms). destruct (new_tables a i ms) as [tb|] eqn:E.
  - apply new_tables_some in E. destruct E. split; [discriminate|tauto].
  - split; auto. intros _ Hd. rewrite (new_tables_distinct a ms i Hd) in E. discriminate.
Qed.

Lemma in_table a ms : forall i k p, In (k, p) (table a i ms) ->
  match k with
  | KCopy _ => True
  | KView b n txt => b = a /\ i <= n /\ exists m s, nth_error ms (n - i) = Some (m, s) /\ m_name m = txt
  end.
Proof.
  induction ms as [|[m s] r IH]; intros i k p H; simpl in *; [tauto|].
  destruct H as [H|H].
  - inversion H; subst. destruct (m_name m) eqn:Q; simpl; auto.
    split; auto. split; auto. rewrite Nat.sub_diag. simpl. eauto.
  - apply IH in H. destruct k as [b n txt|]; auto. destruct H as (-> & Hl & m' & s' & Hn & Ht).
    split; auto. split; [lia|]. replace (n - i) with (S (n - S i)) by lia. simpl. eauto.
Qed.

Lemma register_registered a ms f : distinct ms -> registered a ms (register a 0 ms (mkT f [])).
Proof.
  intros Hd. split; [|split].
  - intros nm. rewrite register_map, find_table by auto. destruct (index_of nm ms); auto.
  - intros k p Hin. rewrite register_map in Hin by auto. apply in_table in Hin.
    destruct k as [b i txt|]; simpl; auto. destruct Hin as (-> & _ & m & s & Hn & Ht).
    rewrite Nat.sub_0_r in Hn. eauto.
  - intros i Hi. rewrite register_arr. simpl. replace (Nat.ltb i (List.length ms)) with true
      by (symmetry; apply Nat.ltb_lt; auto). rewrite Nat.sub_0_r. auto.
Qed.

Lemma place_eqb_eq a b : place_eqb a b = true <-> a = b.
Proof.
  unfold place_eqb. destruct a as [x l], b as [y r]; simpl. rewrite andb_true_iff, Nat.eqb_eq.
  destruct (list_eq_dec Nat.eq_dec l r); split; intros H; try (destruct H; discriminate).
  - destruct H; subst; auto.
  - inversion H; auto.
  - inversion H; subst. tauto.
Qed.

(** The last index that holds [p] counts. *)
Lemma ids_from_find arr p : forall n i acc,
  (forall j, i <= j < i + n -> arr j <> Some p) -> find_id p (ids_from arr i n acc) = find_id p acc.
Proof.
  induction n as [|n IH]; intros i acc H; simpl; auto.
  rewrite IH by (intros j Hj; apply H; lia).
  destruct (arr i) as [q|] eqn:E; auto. simpl. destruct (place_eqb q p) eqn:Q; auto.
  apply place_eqb_eq in Q. subst. exfalso. apply (H i); auto. lia.
Qed.

Lemma ids_from_last arr p x : forall n i acc, i <= x < i + n -> arr x = Some p ->
  (forall j, x < j < i + n -> arr j <> Some p) -> find_id p (ids_from arr i n acc) = Some x.
Proof.
  induction n as [|n IH]; intros i acc Hx Hp Hj; [lia|]. simpl.
  destruct (Nat.eq_dec x i) as [->|Hne].
  - rewrite Hp. rewrite ids_from_find by (intros j H; apply Hj; lia).
    simpl. assert (Q : place_eqb p p = true) by (apply place_eqb_eq; auto). rewrite Q. auto.
  - apply IH; auto; try lia. intros j H. apply Hj. lia.
Qed.

Lemma setup_numbered a ms tb : registered a ms tb -> numbered a ms (setup_ids tb (List.length ms)).
Proof.
  intros (_ & _ & H) i p Hp Hu. unfold setup_ids.
  assert (Hi : i < List.length ms).
  { unfold member_place in Hp. apply nth_error_Some. destruct (nth_error ms i); [discriminate|discriminate Hp]. }
  apply ids_from_last; [lia| |].
  - rewrite H; auto.
  - intros j Hj Hq. rewrite H in Hq by lia. apply Hu in Hq. lia.
Qed.

(** *** One object *)
Lemma here_move a o : names_differ o -> here a (move a o) /\ names_differ (move a o).
Proof.
  destruct o as [| | |b k v tb ms ig ign cb|b st v t tm cur tb ids ms ig cb].
  - simpl; auto.
  - intros _. split; exact I || reflexivity.
  - simpl; auto.
  - intros Hd. rewrite move_obj. unfold names_differ in *.
    assert (D : distinct (moves a 0 ms)) by (eapply kinds_distinct; [symmetry; apply kinds_moves|auto]).
    split; auto. apply register_registered; auto.
  - intros Hd. rewrite move_uni. unfold names_differ in *.
    assert (D : distinct (moves a 0 ms)) by (eapply kinds_distinct; [symmetry; apply kinds_moves|auto]).
    split; auto. split.
    + apply register_registered; auto.
    + apply setup_numbered. apply register_registered; auto.
Qed.

Lemma kid_move a o i : kid (move a o) i = option_map (move (sub a i)) (kid o i).
Proof.
  destruct o as [|b sd st vals ptr e cb|b st key vals e ecb cb|b k v tb ms ig ign cb|b st v t tm cur tb ids ms ig cb].
  - reflexivity.
  - destruct e; simpl; auto. destruct (Nat.eqb_spec i 0); subst; auto.
  - destruct e; simpl; auto. destruct (Nat.eqb_spec i 0); subst; auto.
  - rewrite move_obj. simpl. rewrite nth_moves. simpl. destruct (nth_error ms i) as [[m []]|]; auto.
  - rewrite move_uni. simpl. rewrite nth_moves. simpl. destruct (nth_error ms i) as [[m []]|]; auto.
Qed.

Lemma inside_move l : forall a o, inside l (move a o) = option_map (move (fst a, (snd a ++ l)%list)) (inside l o).
Proof.
  induction l as [|i l IH]; intros a o; simpl.
  - rewrite app_nil_r. destruct a; auto.
  - rewrite kid_move. destruct (kid o i) as [c|]; simpl; auto. rewrite IH. simpl.
    rewrite <- app_assoc. auto.
Qed.

Lemma sound_move a a0 o : sound a0 o -> sound a (move a o).
Proof.
  intros H l q Hq. rewrite inside_move in Hq. destruct (inside l o) as [q0|] eqn:E; [|discriminate].
  inversion Hq; subst. apply here_move. eapply H; eauto.
Qed.

(** Moves on the way do not matter. *)
Lemma move_move o : forall a b, move a (move b o) = move a o.
Proof.
  assert (X : forall ms, Forall (fun mp => Qs (fun o => forall a b, move a (move b o) = move a o) (snd mp)) ms ->
              forall a b i j, moves a i (moves b j ms) = moves a i ms).
  { induction 1 as [|[m s] r Hs _ IH]; intros a b i j; simpl; auto. rewrite IH.
    destruct s as [x|]; auto. simpl in Hs. rewrite Hs. auto. }
  induction o as [b0 t v cb|b0 sd st vals ptr e cb IH|b0 st key vals e ecb cb IH|b0 k v tb ms ig ign cb IH|b0 st v t tm cur tb ids ms ig cb IH]
    using pobj_ind'; intros a b'.
  - reflexivity.
  - destruct e as [x|]; auto. cbn [move slot_place]. simpl in IH. rewrite IH. auto.
  - destruct e as [x|]; auto. cbn [move slot_place]. simpl in IH. rewrite IH. auto.
  - rewrite !move_obj, X; auto.
  - rewrite !move_uni, X; auto.
Qed.

(** *** Move assignment *)
Lemma nth_assigns a ms : forall i ds ms' n m z, assigns a i ds ms = Some ms' ->
  nth_error ms' n = Some (m, z) ->
  exists d x y w, nth_error ds n = Some (d, Own x) /\ nth_error ms n = Some (m, Own y) /\
    z = Own w /\ assign (sub a (i + n)) x y = Some w.
Proof.
  induction ms as [|[m s] r IH]; intros i [|[d x] ds] ms' n m0 z H Hn; simpl in H; try discriminate.
  - inversion H; subst. destruct n; discriminate.
  - destruct x; discriminate.
  - destruct x as [x|]; [|discriminate]. destruct s as [y|]; [|discriminate].
    destruct (assign (sub a i) x y) as [w|] eqn:Ew; [|discriminate].
    destruct (assigns a (S i) ds r) as [r'|] eqn:E; [|discriminate].
    inversion H; subst. destruct n as [|n]; simpl in Hn.
    + inversion Hn; subst. simpl. rewrite Nat.add_0_r. do 4 eexists. eauto.
    + destruct (IH _ _ _ _ _ _ E Hn) as (d' & x' & y' & w' & ? & ? & ? & ?).
      replace (i + S n) with (S i + n) by lia. do 4 eexists; eauto.
Qed.

Lemma kid_assign a d s y i z : assign a d s = Some y -> kid y i = Some z ->
  exists x w, kid d i = Some x /\ kid s i = Some w /\ assign (sub a i) x w = Some z.
Proof.
  destruct s as [|b sd st vals ptr e cb|b st key vals e ecb cb|b k v tb ms ig ign cb|b st v t tm cur tb ids ms ig cb];
  destruct d as [|b0 sd0 st0 vals0 ptr0 e0 cb0|b0 st0 key0 vals0 e0 ecb0 cb0|b0 k0 v0 tb0 ms0 ig0' ign0 cb0|b0 st0 v0 t0 tm0 cur0 tb0 ids0 ms0 ig0' cb0];
  try (repeat match goal with e : slot pobj |- _ => destruct e end; simpl; discriminate).
  - simpl. destruct (vtype_eqb t0 t); intros H; inversion H; subst; discriminate.
  - destruct e as [e|], e0 as [e0|]; simpl; try discriminate.
    destruct (Bool.eqb st0 st); [|discriminate].
    destruct (assign (sub a 0) e0 e) as [w|] eqn:E; [|discriminate]. intros H; inversion H; subst. simpl.
    destruct (Nat.eqb_spec i 0); [|discriminate]. intros X; inversion X; subst. eauto.
  - destruct e as [e|], e0 as [e0|]; simpl; try discriminate.
    destruct (Bool.eqb st0 st); [|discriminate].
    destruct (assign (sub a 0) e0 e) as [w|] eqn:E; [|discriminate]. intros H; inversion H; subst. simpl.
    destruct (Nat.eqb_spec i 0); [|discriminate]. intros X; inversion X; subst. eauto.
  - rewrite assign_obj. destruct (okind_eqb k0 k); [|discriminate]. destruct (assigns a 0 ms0 ms) as [ms'|] eqn:E; [|discriminate].
    intros H; inversion H; subst. simpl. destruct (nth_error ms' i) as [[m sl]|] eqn:En; [|discriminate].
    destruct (nth_assigns _ _ _ _ _ E En) as (d' & x' & y' & w' & -> & -> & -> & Ha). simpl in Ha.
    intros X; inversion X; subst. eauto.
  - rewrite assign_uni. destruct (Bool.eqb st0 st && vtype_eqb t0 t); [|discriminate]. destruct (assigns a 0 ms0 ms) as [ms'|] eqn:E; [|discriminate].
    intros H; inversion H; subst. simpl. destruct (nth_error ms' i) as [[m sl]|] eqn:En; [|discriminate].
    destruct (nth_assigns _ _ _ _ _ E En) as (d' & x' & y' & w' & -> & -> & -> & Ha). simpl in Ha.
    intros X; inversion X; subst. eauto.
Qed.

Lemma here_assign a d s y : assign a d s = Some y -> names_differ s -> here a y /\ names_differ y.
Proof.
  destruct s as [|b sd st vals ptr e cb|b st key vals e ecb cb|b k v tb ms ig ign cb|b st v t tm cur tb ids ms ig cb];
  destruct d as [|b0 sd0 st0 vals0 ptr0 e0 cb0|b0 st0 key0 vals0 e0 ecb0 cb0|b0 k0 v0 tb0 ms0 ig0' ign0 cb0|b0 st0 v0 t0 tm0 cur0 tb0 ids0 ms0 ig0' cb0];
  try (repeat match goal with e : slot pobj |- _ => destruct e end; simpl; discriminate).
  - simpl. destruct (vtype_eqb t0 t); intros H; inversion H; subst; simpl; auto.
  - destruct e as [e|], e0 as [e0|]; simpl; try discriminate.
    destruct (Bool.eqb st0 st); [|discriminate].
    destruct (assign (sub a 0) e0 e) as [w|] eqn:E; [|discriminate]. intros H; inversion H; subst. simpl. auto.
  - destruct e as [e|], e0 as [e0|]; simpl; try discriminate.
    destruct (Bool.eqb st0 st); [|discriminate].
    destruct (assign (sub a 0) e0 e) as [w|] eqn:E; [|discriminate]. intros H; inversion H; subst. simpl. auto.
  - rewrite assign_obj. destruct (okind_eqb k0 k); [|discriminate]. destruct (assigns a 0 ms0 ms) as [ms'|] eqn:E; [|discriminate].
    intros H Hd; inversion H; subst. unfold names_differ in *.
    assert (D : distinct ms') by (eapply kinds_distinct; [symmetry; eapply kinds_assigns; eauto|auto]).
    split; auto. apply register_registered; auto.
  - rewrite assign_uni. destruct (Bool.eqb st0 st && vtype_eqb t0 t); [|discriminate]. destruct (assigns a 0 ms0 ms) as [ms'|] eqn:E; [|discriminate].
    intros H Hd; inversion H; subst. unfold names_differ in *.
    assert (D : distinct ms') by (eapply kinds_distinct; [symmetry; eapply kinds_assigns; eauto|auto]).
    split; auto. split; [|apply setup_numbered]; apply register_registered; auto.
Qed.

Lemma inside_assign l : forall a d s y q, assign a d s = Some y -> inside l y = Some q ->
  exists x w, inside l s = Some w /\ assign (fst a, (snd a ++ l)%list) x w = Some q.
Proof.
  induction l as [|i l IH]; intros a d s y q H Hq; simpl in *.
  - inversion Hq; subst. rewrite app_nil_r. destruct a; eauto.
  - destruct (kid y i) as [z|] eqn:Ek; [|discriminate].
    destruct (kid_assign _ _ _ _ H Ek) as (x & w & _ & Hw & Hz). rewrite Hw.
    destruct (IH _ _ _ _ _ Hz Hq) as (x' & w' & H1 & H2). simpl in H2. rewrite <- app_assoc in H2.
    simpl in H2. eauto.
Qed.

Lemma sound_assign a a0 d s y : assign a d s = Some y -> sound a0 s -> sound a y.
Proof.
  intros H Hs l q Hq. destruct (inside_assign _ _ _ _ H Hq) as (x & w & Hw & Hx).
  eapply here_assign; eauto. eapply Hs; eauto.
Qed.

(** *** Assignment to a sub-parser *)
Lemma nth_set_nth {A} (x : A) l : forall i j, nth_error (set_nth i x l) j =
  if Nat.eqb j i then match nth_error l i with Some _ => Some x | None => None end else nth_error l j.
Proof.
  induction l as [|y l IH]; intros i j; simpl.
  - destruct j; destruct (Nat.eqb _ i); destruct i; auto.
  - destruct i as [|i], j as [|j]; simpl; auto.
Qed.

Lemma kid_set_kid o i c x j : kid o i = Some c -> kid (set_kid o i x) j = if Nat.eqb j i then Some x else kid o j.
Proof.
  destruct o as [|b sd st vals ptr e cb|b st key vals e ecb cb|b k v tb ms ig ign cb|b st v t tm cur tb ids ms ig cb];
    simpl; try discriminate.
  - destruct e; [|discriminate]. destruct (Nat.eqb_spec i 0); [|discriminate]. subst.
    intros _. destruct (Nat.eqb j 0); auto.
  - destruct e; [|discriminate]. destruct (Nat.eqb_spec i 0); [|discriminate]. subst.
    intros _. destruct (Nat.eqb j 0); auto.
  - destruct (nth_error ms i) as [[m s]|] eqn:E; [|discriminate]. intros _.
    rewrite nth_set_nth, E. destruct (Nat.eqb j i); auto.
  - destruct (nth_error ms i) as [[m s]|] eqn:E; [|discriminate]. intros _.
    rewrite nth_set_nth, E. destruct (Nat.eqb j i); auto.
Qed.

Lemma kinds_set_nth ms : forall i m s x, nth_error ms i = Some (m, Own s) ->
  kinds (set_nth i (m, Own x) ms) = kinds ms.
Proof.
  induction ms as [|[m s] r IH]; intros [|i] m0 s0 x H; simpl in *; try discriminate.
  - inversion H; subst; auto.
  - rewrite (IH i m0 s0); auto.
Qed.

Lemma here_set_kid a o i c x : kid o i = Some c -> here a o /\ names_differ o ->
  here a (set_kid o i x) /\ names_differ (set_kid o i x).
Proof.
  destruct o as [|b sd st vals ptr e cb|b st key vals e ecb cb|b k v tb ms ig ign cb|b st v t tm cur tb ids ms ig cb];
    simpl; auto.
  - destruct e; [|discriminate]. auto.
  - destruct (nth_error ms i) as [[m [s|]]|] eqn:E; try discriminate. intros _ [H1 H2].
    pose proof (kinds_set_nth ms i x E) as K.
    split; [eapply kinds_registered|eapply kinds_distinct]; [symmetry; exact K|exact H1|symmetry; exact K|exact H2].
  - destruct (nth_error ms i) as [[m [s|]]|] eqn:E; try discriminate. intros _ [[H1 H3] H2].
    pose proof (kinds_set_nth ms i x E) as K.
    split; [split; [eapply kinds_registered|eapply kinds_numbered]|eapply kinds_distinct];
      [symmetry; exact K|exact H1|symmetry; exact K|exact H3|symmetry; exact K|exact H2].
Qed.

Lemma sound_kid a o i c : kid o i = Some c -> sound a o -> sound (sub a i) c.
Proof.
  intros Hk H l q Hq. specialize (H (i :: l) q). simpl in H. rewrite Hk in H.
  simpl. rewrite <- app_assoc. simpl. auto.
Qed.

Lemma sound_intro a o : here a o /\ names_differ o ->
  (forall i c, kid o i = Some c -> sound (sub a i) c) -> sound a o.
Proof.
  intros H Hk l q Hq. destruct l as [|i l]; simpl in *.
  - inversion Hq; subst. rewrite app_nil_r. destruct a; auto.
  - destruct (kid o i) as [c|] eqn:E; [|discriminate]. specialize (Hk _ _ E l q Hq).
    simpl in Hk. rewrite <- app_assoc in Hk. auto.
Qed.

Lemma sound_here a o : sound a o -> here a o /\ names_differ o.
Proof. intros H. specialize (H [] o eq_refl). rewrite app_nil_r in H. destruct a; auto. Qed.

Lemma sound_replace l : forall a d x y, sound a d -> inside l d = Some x ->
  sound (fst a, (snd a ++ l)%list) y -> sound a (replace l y d).
Proof.
  induction l as [|i l IH]; intros a d x y Hd Hx Hy; simpl in *.
  - rewrite app_nil_r in Hy. destruct a; auto.
  - destruct (kid d i) as [c|] eqn:E; [|discriminate].
    assert (Hc : sound (sub a i) (replace l y c)).
    { eapply IH; eauto using sound_kid. simpl. rewrite <- app_assoc. auto. }
    apply sound_intro.
    + eapply here_set_kid; eauto. apply sound_here; auto.
    + intros j c' Hj. rewrite (kid_set_kid _ _ _ _ E) in Hj.
      destruct (Nat.eqb_spec j i); [inversion Hj; subst; auto|]. eapply sound_kid; eauto.
Qed.

(** *** Parsing *)
Lemma kinds_pointers ms : 
  kinds (map (fun mp : mspec * slot pobj => (fst mp, match snd mp with Own x => Own (pointers x) | Ref p => Ref p end)) ms)
  = kinds ms.
Proof.
  unfold kinds. rewrite map_map. apply map_ext. intros [m []]; auto.
Qed.

Lemma here_pointers a o : (here a (pointers o) /\ names_differ (pointers o)) <-> (here a o /\ names_differ o).
Proof.
  destruct o as [|b sd st vals ptr e cb|b st key vals e ecb cb|b k v tb ms ig ign cb|b st v t tm cur tb ids ms ig cb];
    simpl; try tauto.
  - destruct e; simpl; tauto.
  - pose proof (kinds_pointers ms) as K. pose proof (eq_sym K) as K'. split; intros [H1 H2];
      (split; [eapply kinds_registered; [|exact H1]|eapply kinds_distinct; [|exact H2]]); assumption.
  - pose proof (kinds_pointers ms) as K. pose proof (eq_sym K) as K'. split; intros [[H1 H3] H2];
      (split; [split; [eapply kinds_registered; [|exact H1]|eapply kinds_numbered; [|exact H3]]
              |eapply kinds_distinct; [|exact H2]]); assumption.
Qed.

Lemma kid_pointers o i : kid (pointers o) i = option_map pointers (kid o i).
Proof.
  destruct o as [|b sd st vals ptr e cb|b st key vals e ecb cb|b k v tb ms ig ign cb|b st v t tm cur tb ids ms ig cb];
    simpl; auto.
  - destruct e; simpl; auto. destruct (Nat.eqb i 0); auto.
  - destruct e; simpl; auto. destruct (Nat.eqb i 0); auto.
  - rewrite nth_error_map. destruct (nth_error ms i) as [[m []]|]; auto.
  - rewrite nth_error_map. destruct (nth_error ms i) as [[m []]|]; auto.
Qed.

Lemma inside_pointers l : forall o, inside l (pointers o) = option_map pointers (inside l o).
Proof.
  induction l as [|i l IH]; intros o; simpl; auto.
  rewrite kid_pointers. destruct (kid o i); simpl; auto.
Qed.

Lemma sound_pointers a o : sound a (pointers o) <-> sound a o.
Proof.
  split; intros H l q Hq.
  - apply here_pointers. apply H. rewrite inside_pointers, Hq. auto.
  - rewrite inside_pointers in Hq. destruct (inside l o) as [q0|] eqn:E; [|discriminate].
    inversion Hq; subst. apply here_pointers. apply H; auto.
Qed.

Lemma sound_use a o o' : pointers o' = pointers o -> sound a o -> sound a o'.
Proof. intros H Hs. apply sound_pointers. rewrite H. apply sound_pointers; auto. Qed.

(** *** Programs *)
Definition all_sound (m : objects) : Prop := forall id o, m id = Some (true, o) -> sound (id, []) o.

Lemma take_sound m a x s m1 : all_sound m -> take m a x s m1 ->
  all_sound m1 /\ (forall o, s = Own o -> sound a o) /\
  (forall id, m id = None -> m1 id = None).
Proof.
  intros H T. destruct T as [id o Hm|p].
  - split; [|split].
    + intros j q Hj. unfold mem_set in Hj. destruct (Nat.eqb j id); [discriminate|]. apply H; auto.
    + intros q Hq. inversion Hq; subst. eapply sound_move; eauto.
    + intros j Hj. unfold mem_set. destruct (Nat.eqb_spec j id); subst; congruence.
  - split; [auto|split; [discriminate|auto]].
Qed.

Lemma takes_sound m a i xs ms m1 : all_sound m -> takes m a i xs ms m1 ->
  all_sound m1 /\
  (forall n mm o, nth_error ms n = Some (mm, Own o) -> sound (sub a (i + n)) o).
Proof.
  intros H T. induction T as [i|i mm x r s r' m1 m2 T IH T2].
  - split; auto. intros [|n]; discriminate.
  - destruct IH as [IH1 IH2]. destruct (take_sound IH1 T2) as (H1 & H2 & _).
    split; auto. intros [|n] mm0 o Hn; simpl in Hn.
    + inversion Hn; subst. rewrite Nat.add_0_r. auto.
    + replace (i + S n) with (S i + n) by lia. eauto.
Qed.

Lemma make_sound m id o m1 : all_sound m -> make m id o m1 -> all_sound m1 /\ sound (id, []) o.
Proof.
  intros H M. destruct M as [t cb|st x e cb m1 T|st x e ecb cb m1 T|k xs ms v tb ign cb m1 rd T N V|st v t tm xs ms tb cb m1 rd T N V].
  - split; auto. apply sound_intro; simpl; auto. discriminate.
  - destruct (take_sound H T) as (H1 & H2 & _). split; auto.
    apply sound_intro; [simpl; auto|]. intros i c Hk. simpl in Hk. destruct e as [q|]; [|discriminate].
    destruct (Nat.eqb_spec i 0); [|discriminate]. inversion Hk; subst. apply H2; auto.
  - destruct (take_sound H T) as (H1 & H2 & _). split; auto.
    apply sound_intro; [simpl; auto|]. intros i c Hk. simpl in Hk. destruct e as [q|]; [|discriminate].
    destruct (Nat.eqb_spec i 0); [|discriminate]. inversion Hk; subst. apply H2; auto.
  - destruct (takes_sound H T) as [H1 H2]. split; auto.
    destruct (new_tables_some _ _ _ N) as [Hd ->].
    apply sound_intro; [split; auto; apply register_registered; auto|].
    intros i c Hk. simpl in Hk. destruct (nth_error ms i) as [[mm [q|]]|] eqn:E; try discriminate.
    inversion Hk; subst. apply (H2 _ _ _ E).
  - destruct (takes_sound H T) as [H1 H2]. split; auto.
    destruct (new_tables_some _ _ _ N) as [Hd ->].
    assert (R : registered (id, []) ms (register (id, []) 0 ms no_tables)) by (apply register_registered; auto).
    apply sound_intro; [split; auto; split; auto; apply setup_numbered; auto|].
    intros i c Hk. simpl in Hk. destruct (nth_error ms i) as [[mm [q|]]|] eqn:E; try discriminate.
    inversion Hk; subst. apply (H2 _ _ _ E).
Qed.

Lemma step_sound u m m' : all_sound m -> pstep u m m' -> all_sound m'.
Proof.
  intros H S. destruct S as [id o m1 Hf Hm Hf1|id src o Hf Hs|id l live d x src o y Hne Hd Hs Hx Ha|id o o' Hu Ho Hp|id].
  - destruct (make_sound H Hm) as [H1 H2]. intros j q Hj. unfold mem_set in Hj.
    destruct (Nat.eqb_spec j id); [inversion Hj; subst; auto|auto].
  - intros j q Hj. unfold mem_set in Hj. destruct (Nat.eqb_spec j id).
    + inversion Hj; subst. eapply sound_move; eauto.
    + destruct (Nat.eqb j src); [discriminate|auto].
  - intros j q Hj. unfold mem_set in Hj. destruct (Nat.eqb_spec j id).
    + subst. injection Hj as Hl Hq. subst q.
      assert (Hy : sound (id, l) y) by (eapply sound_assign; eauto).
      destruct l as [|i l]; [exact Hy|].
      subst live. eapply sound_replace; eauto.
    + destruct (Nat.eqb j src); [discriminate|auto].
  - intros j q Hj. unfold mem_set in Hj. destruct (Nat.eqb_spec j id).
    + inversion Hj; subst. eapply sound_use; eauto.
    + auto.
  - intros j q Hj. simpl in Hj. destruct (Nat.eqb j id); [discriminate|auto].
Qed.

Theorem program_sound u m : program u m -> all_sound m.
Proof.
  induction 1 as [|m m' _ IH S]; [intros id o H; discriminate|]. eapply step_sound; eauto.
Qed.
