(** Model of the parser implementation [YajlParser] and of [ParsingError].

    Citations are relative to /repo/library/sjparser. *)

From Verif Require Import Base Model.
Local Open Scope string_scope.
Set Implicit Arguments.

(** ** The underlying JSON parser (yajl; not part of /repo)

    An arbitrary incremental tokenizer: a state, what it reports for the next
    byte and for the end of the text.  [None]: it rejects the text at this point
    (yajl_status_error).  That its reaction to a byte depends on its state only,
    not on the borders of the buffers, is assumed of yajl. *)
Record tokenizer := mkTk {
  tk_st : Type;
  tk_init : tk_st;                                          (* yajl_alloc *)
  tk_byte : tk_st -> ascii -> list token * option tk_st;    (* inside yajl_parse *)
  tk_fin : tk_st -> list token * option tk_st               (* yajl_complete_parse *)
}.

(** Memory of the caller: the content of the buffers that are alive. *)
Definition mem := nat -> option (list ascii).

(** ParsingError: parsing_error.h:33-66, parsing_error.cpp:28-45. *)
Record perr := PErr { pe_sj : string; pe_yajl : string }.

(** what(): parsing_error.cpp:32-37 (c_str of the first non-empty text). *)
Definition pe_what (e : perr) : string :=
  if String.eqb (pe_sj e) "" then from_c (pe_yajl e) else from_c (pe_sj e).

Section Api.
Variable tk : tokenizer.
Variable E : env.
Variable g : nat.
(** yajl_get_error(handle, verbose, data, len): some text depending on the data. *)
Variable yerr : list ascii -> string.

(** A yajl handle: usable, or in an error state (yajl_state_parse_error /
    yajl_state_lexical_error), from which every further call fails. *)
Inductive handle := HLive (st : tk_st tk) | HDead.

(** YajlParser's fields: yajl_parser.h:127-133, with the root parser object and
    the callback history in [a_m].  [a_data]: _data, _len - the buffer and its
    size, None = nullptr. *)
Record api := mkApi {
  a_m : mstate;
  a_h : handle;
  a_data : option (nat * nat);
  a_reset : bool;
  a_err : string
}.

(** What leaves parse() and finish(): a return, a ParsingError, std::terminate
    (an exception that no catch clause of the noexcept function YajlParser::on
    catches), undefined behaviour (a dispatcher pointer or a dead buffer).
    std::runtime_error of resetYajlHandle (failed allocation, yajl_parser.cpp:37-42) is
    modelled in Alloc.v only. *)
Inductive aub := UBDisp (u : ub) | UBBuffer.
Inductive ares :=
| AOk (a : api)
| AThrow (x : perr) (a : api)
| ATerm
| AUB (u : aub)
| AFuel.

(** Result of a yajl call: status ok, any other status. *)
Inductive yres := YOk (a : api) | YErr (a : api) | YTerm | YUB (u : ub) | YFuel.

Definition with_m (a : api) (m : mstate) : api :=
  mkApi m (a_h a) (a_data a) (a_reset a) (a_err a).
Definition with_h (a : api) (h : handle) : api :=
  mkApi (a_m a) h (a_data a) (a_reset a) (a_err a).
Definition with_err (a : api) (e : string) : api :=
  mkApi (a_m a) (a_h a) (a_data a) (a_reset a) e.
Definition with_reset (a : api) (r : bool) : api :=
  mkApi (a_m a) (a_h a) (a_data a) r (a_err a).

(** The catch clauses of YajlParser::on, in order, yajl_parser.h:149-155:
    [catch (std::exception &e)] takes e.what(), [catch (...)] a fixed text. *)
Inductive handler := CatchStd | CatchAll (text : string).
Definition on_handlers : list handler := [CatchStd; CatchAll "Unknown exception"].

(** Exception handling: the first matching clause. *)
Fixpoint catch (hs : list handler) (e : exn) : option string :=
  match hs with
  | [] => None
  | CatchStd :: r => match e with XStd m => Some (from_c m) | XOther => catch r e end
  | CatchAll t :: _ => Some t
  end.

(** YajlParser::on and the yajlOn* functions: yajl_parser.h:144-157,
    yajl_parser.cpp:99-140.  YErr: the callback returned 0. *)
Definition on_token (t : token) (a : api) : yres :=
  match dispatch E g t (a_m a) with
  | ROk m => YOk (with_m a m)
  | RThrow e m =>
      match catch on_handlers e with
      | Some text => YErr (with_err (with_m a m) text)
      | None => YTerm
      end
  | RUB u => YUB u
  | RFuel => YFuel
  end.

(** yajl reports tokens one by one; a callback returning 0 cancels the parse
    and leaves the handle in an error state. *)
Fixpoint deliver (ts : list token) (a : api) : yres :=
  match ts with
  | [] => YOk a
  | t :: r =>
      match on_token t a with
      | YOk a' => deliver r a'
      | YErr a' => YErr (with_h a' HDead)
      | x => x
      end
  end.

(** Reaction to one byte or to the end of the text. *)
Definition react (x : list token * option (tk_st tk)) (a : api) : yres :=
  match deliver (fst x) a with
  | YOk a' =>
      match snd x with
      | Some st => YOk (with_h a' (HLive st))
      | None => YErr (with_h a' HDead)
      end
  | y => y
  end.

(** yajl_parse. *)
Fixpoint feed (bs : list ascii) (a : api) : yres :=
  match bs with
  | [] => match a_h a with HLive _ => YOk a | HDead => YErr a end
  | b :: r =>
      match a_h a with
      | HDead => YErr a
      | HLive st =>
          match react (tk_byte tk st b) a with
          | YOk a' => feed r a'
          | x => x
          end
      end
  end.

(** yajl_complete_parse. *)
Definition complete (a : api) : yres :=
  match a_h a with
  | HDead => YErr a
  | HLive st => react (tk_fin tk st) a
  end.

(** throwParsingError: yajl_parser.cpp:86-97; yajl_get_error reads the first bytes
    of [_data, _data + _len). *)
Definition throw_parsing_error (M : mem) (a : api) : ares :=
  match a_data a with
  | None => AThrow (PErr (a_err a) (yerr [])) a
  | Some (b, len) =>
      match len with
      | O => AThrow (PErr (a_err a) (yerr [])) a
      | _ =>
          match M b with
          | Some bytes =>
              if Nat.leb len (List.length bytes)
              then AThrow (PErr (a_err a) (yerr (firstn len bytes))) a
              else AUB UBBuffer
          | None => AUB UBBuffer
          end
      end
  end.

Definition lift_y (y : yres) (ok err : api -> ares) : ares :=
  match y with
  | YOk a => ok a
  | YErr a => err a
  | YTerm => ATerm
  | YUB u => AUB (UBDisp u)
  | YFuel => AFuel
  end.

(** [if (_reset_needed) {...}]: yajl_parser.cpp:52-58. *)
Definition do_reset (a : api) : api :=
  if a_reset a
  then mkApi (dispatcher_reset (a_m a)) (HLive (tk_init tk)) (a_data a) false ""
  else a.

(** parse(data, len): yajl_parser.cpp:44-64.  The argument is a buffer. *)
Definition parse (M : mem) (b : nat) (a : api) : ares :=
  match M b with
  | None => AUB UBBuffer
  | Some bytes =>
      let a1 := mkApi (a_m a) (a_h a) (Some (b, List.length bytes)) (a_reset a) (a_err a) in
      lift_y (feed bytes (do_reset a1)) AOk
             (fun a2 => throw_parsing_error M (with_reset a2 true))
  end.

(** finish(): yajl_parser.cpp:66-84. *)
Definition finish (M : mem) (a : api) : ares :=
  lift_y (complete (with_reset a true))
         (fun a1 => if empty_stack (a_m a1) then AOk a1
                    else AThrow (PErr e_stack_left "") a1)
         (throw_parsing_error M).

(** The constructors: yajl_parser.cpp:29-35, parser.h:71-79,
    internals/dispatcher.cpp:29-32. *)
Definition start (p : parser) (l : list event) : api :=
  mkApi (attach g p l) (HLive (tk_init tk)) None false "".

(** Consecutive parse() calls; the first exception stops them. *)
Fixpoint parse_all (M : mem) (bufs : list nat) (a : api) : ares :=
  match bufs with
  | [] => AOk a
  | b :: r =>
      match parse M b a with
      | AOk a' => parse_all M r a'
      | x => x
      end
  end.

(** A whole document: parse() calls and finish(). *)
Definition document (M : mem) (bufs : list nat) (a : api) : ares :=
  match parse_all M bufs a with
  | AOk a' => finish M a'
  | x => x
  end.

(** *** Histories *)
Inductive op :=
| OpParse (M : mem) (b : nat)
| OpFinish (M : mem).

Definition do_op (o : op) (a : api) : ares :=
  match o with OpParse M b => parse M b a | OpFinish M => finish M a end.

(** The user goes on after a ParsingError. *)
Fixpoint do_ops (os : list op) (a : api) : ares :=
  match os with
  | [] => AOk a
  | o :: r =>
      match do_op o a with
      | AOk a' => do_ops r a'
      | AThrow _ a' => do_ops r a'
      | x => x
      end
  end.

(** *** Tokenizing a whole text *)

(** The tokens of a text fed from a state, and the state after it (None:
    rejected). *)
Fixpoint tokens (bs : list ascii) (st : tk_st tk) : list token * option (tk_st tk) :=
  match bs with
  | [] => ([], Some st)
  | b :: r =>
      match tk_byte tk st b with
      | (ts, None) => (ts, None)
      | (ts, Some st') => let (ts', x) := tokens r st' in ((ts ++ ts')%list, x)
      end
  end.

(** ... and of the complete text. *)
Definition tokenize (bs : list ascii) : list token * option (tk_st tk) :=
  match tokens bs (tk_init tk) with
  | (ts, None) => (ts, None)
  | (ts, Some st) => let (ts', x) := tk_fin tk st in ((ts ++ ts')%list, x)
  end.
End Api.
