(** Model of resetYajlHandle and of parse(), finish() and the constructor when the
    allocation of the underlying parser may fail.

    Citations are relative to /repo/library/sjparser. *)

From Verif Require Import Base Model Api.
Local Open Scope string_scope.
Set Implicit Arguments.

(** std::runtime_error's text: yajl_parser.cpp:40. *)
Definition e_handle : string := "Can not allocate YAJL handle".

Section Alloc.
Variable tk : tokenizer.
Variable E : env.
Variable g : nat.
Variable yerr : list ascii -> string.

(** YajlParser's fields; [f_null]: _yajl_handle is nullptr ([a_h] is meaningless then).
    yajl_parser.h:127-133. *)
Record fapi := mkF { f_a : api tk; f_null : bool }.

(** What leaves a call; FRuntime: std::runtime_error. *)
Inductive fub := FApi (u : aub) | FNullHandle.
Inductive fres :=
| FOk (x : fapi)
| FThrow (e : perr) (x : fapi)
| FRuntime (text : string) (x : fapi)
| FTerm
| FUB (u : fub)
| FFuel.

Definition whole (a : api tk) : fapi := mkF a false.

Definition f_lift (r : ares tk) : fres :=
  match r with
  | AOk a => FOk (whole a)
  | AThrow e a => FThrow e (whole a)
  | ATerm _ => FTerm
  | AUB _ u => FUB (FApi u)
  | AFuel _ => FFuel
  end.

(** resetYajlHandle: yajl_parser.cpp:37-42.  [ok]: yajl_alloc returns a handle.  The
    old handle is freed in either case (unique_ptr::reset). *)
Definition reset_handle (ok : bool) (x : fapi) : fapi + fapi :=
  if ok then inr (whole (with_h (f_a x) (HLive tk (tk_init tk))))
  else inl (mkF (f_a x) true).

(** The call of yajl_parse and what follows: yajl_parser.cpp:60-63. *)
Definition yajl_part (M : mem) (bytes : list ascii) (x : fapi) : fres :=
  if f_null x then FUB FNullHandle
  else f_lift (lift_y (feed E g bytes (f_a x)) (@AOk tk)
                 (fun a2 => throw_parsing_error yerr M (with_reset a2 true))).

(** parse(data, len): yajl_parser.cpp:48-64, statement by statement.  A buffer that is
    not alive counts as undefined behaviour even if it would not be read. *)
Definition f_parse (ok : bool) (M : mem) (b : nat) (x : fapi) : fres :=
  match M b with
  | None => FUB (FApi UBBuffer)
  | Some bytes =>
      let a := f_a x in
      let a1 := mkApi (a_m a) (a_h a) (Some (b, List.length bytes)) (a_reset a) (a_err a) in
      if a_reset a1 then
        let a2 := with_m a1 (dispatcher_reset (a_m a1)) in
        match reset_handle ok (mkF a2 (f_null x)) with
        | inl y => FRuntime e_handle y
        | inr y => yajl_part M bytes (mkF (with_reset (with_err (f_a y) "") false) (f_null y))
        end
      else yajl_part M bytes (mkF a1 (f_null x))
  end.

(** finish(): yajl_parser.cpp:66-74. *)
Definition f_finish (M : mem) (x : fapi) : fres :=
  if f_null x then FUB FNullHandle else f_lift (Api.finish E g yerr M (f_a x)).

(** The constructors: yajl_parser.cpp:29-35; None: YajlParser() throws e_handle and there
    is no object. *)
Definition f_new (ok : bool) (p : parser) (l : list event) : option fapi :=
  if ok then Some (whole (start tk g p l)) else None.

(** Calls; [ok] says whether yajl_alloc works if this call needs it. *)
Inductive fop :=
| FParse (ok : bool) (M : mem) (b : nat)
| FFinish (M : mem).

Definition f_op (o : fop) (x : fapi) : fres :=
  match o with FParse ok M b => f_parse ok M b x | FFinish M => f_finish M x end.

(** Lemmas *)
Lemma f_parse_ok M b a : f_parse true M b (whole a) = f_lift (parse E g yerr M b a).
Proof.
  unfold f_parse, parse. destruct (M b) as [bytes|]; auto. unfold do_reset. simpl.
  destruct (a_reset a) eqn:H; reflexivity.
Qed.

Lemma f_parse_cont ok M b a : a_reset a = false -> f_parse ok M b (whole a) = f_lift (parse E g yerr M b a).
Proof.
  intros H. unfold f_parse, parse. destruct (M b) as [bytes|]; auto. unfold do_reset. simpl.
  rewrite H. reflexivity.
Qed.

(** [x] after failed allocations is as good as [a]. *)
Definition alike (x : fapi) (a : api tk) : Prop :=
  x = whole a \/
  (f_null x = true /\ a_reset (f_a x) = true /\ a_reset a = true /\
   m_root (a_m (f_a x)) = m_root (a_m a) /\ m_log (a_m (f_a x)) = m_log (a_m a)).

Lemma alike_parse_ok M b x a : alike x a -> f_parse true M b x = f_lift (parse E g yerr M b a).
Proof.
  intros [->|(Hn & Hr & Hr' & Hp & Hl)]; [apply f_parse_ok|].
  unfold f_parse, parse. destruct (M b) as [bytes|]; auto. unfold do_reset. simpl. rewrite Hr, Hr'. simpl.
  unfold dispatcher_reset, set_stack. unfold with_m, with_err, with_reset, with_h. simpl. rewrite Hp, Hl.
  reflexivity.
Qed.

Lemma alike_parse_fail M b bytes x a : M b = Some bytes -> alike x a -> a_reset a = true ->
  exists y, f_parse false M b x = FRuntime e_handle y /\ alike y a /\
    f_null y = true /\ m_root (a_m (f_a y)) = m_root (a_m (f_a x)) /\ m_log (a_m (f_a y)) = m_log (a_m (f_a x)).
Proof.
  intros HM Hx Hr. unfold f_parse. rewrite HM. simpl.
  destruct Hx as [->|(Hn & Hr1 & Hr' & Hp & Hl)].
  - simpl. rewrite Hr. eexists. split; [reflexivity|]. simpl. split; [right; simpl; auto|auto].
  - rewrite Hr1. eexists. split; [reflexivity|]. simpl. split; [right; simpl; auto|auto].
Qed.

Lemma alike_reset x a : alike x a -> a_reset (f_a x) = a_reset a.
Proof. intros [->|(?&?&?&?)]; simpl; congruence. Qed.

Lemma f_parse_runtime ok M b x t y : f_parse ok M b x = FRuntime t y ->
  ok = false /\ a_reset (f_a x) = true /\ (exists bytes, M b = Some bytes) /\ t = e_handle /\ f_null y = true /\
  a_reset (f_a y) = true /\ m_root (a_m (f_a y)) = m_root (a_m (f_a x)) /\ m_log (a_m (f_a y)) = m_log (a_m (f_a x)).
Proof.
  unfold f_parse. destruct (M b) as [bytes|]; [|discriminate]. simpl.
  assert (K : forall z, yajl_part M bytes z <> FRuntime t y).
  { intros z. unfold yajl_part. destruct (f_null z); [discriminate|].
    destruct (lift_y _ _ _); discriminate. }
  destruct (a_reset (f_a x)) eqn:Hr.
  - destruct ok; simpl; intros H; [exfalso; eapply K; eauto|]. inversion H; subst. simpl.
    repeat split; eauto.
  - intros H. exfalso; eapply K; eauto.
Qed.
End Alloc.
