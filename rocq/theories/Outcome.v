(** The observable outcome of parsing one document through parse()/finish(). *)

From Verif Require Import Spec Model Infra Total Safe Refine Main Api ApiProofs History ApiFacts.
Local Open Scope string_scope.
Set Implicit Arguments.

(** What the user sees after parse() ... finish(): the callbacks invoked (all of
    the history, oldest first) and either what the parser objects show, or the
    ParsingError's sjparserError(). *)
Inductive outcome :=
| Parsed (l : list event) (w : view)
| Failed (l : list event) (sj : string)
| Broken.                       (* crash, undefined behaviour *)

Section Outcome.
Variable tk : tokenizer.
Variable g : nat.
Variable yerr : list ascii -> string.
Notation api := (api tk).

Definition result (r : ares tk) : outcome :=
  match r with
  | AOk a => Parsed (m_log (a_m a)) (view_of (m_root (a_m a)))
  | AThrow x a => Failed (m_log (a_m a)) (pe_sj x)
  | _ => Broken
  end.

(** The Parser [a] over declaration [s] is about to be given the text of document
    [j], in the buffers [b :: bufs]. *)
Definition reads (s : schema) (a : api) (M : mem) (b : nat) (bufs : list nat) (j : json) : Prop :=
  history g yerr s a /\ at_start a /\
  exists bs st, content M (b :: bufs) = Some bs /\ tokenize tk bs = (toks j, Some st).

(** The callbacks invoked before. *)
Definition past (a : api) : list event := m_log (a_m a).

(** What the specification says. *)
Definition expected (o : out) : outcome :=
  match o with
  | (l, inr w) => Parsed l w
  | (l, inl e) => Failed l (caught e)
  end.

(** parse() of all buffers, and finish(). *)
Definition doc (P : prog) (M : mem) (b : nat) (bufs : list nat) (a : api) : outcome :=
  result (document (lift P) g yerr M (b :: bufs) a).

Theorem doc_expected P s a M b bufs j :
  reads s a M b bufs j -> supported j s = true ->
  doc P M b bufs a = expected (den P j s (past a)).
Proof.
  intros (Hh & Ha & bs & st & Hc & Ht) Hs.
  pose proof (document_outcome P M b bufs j Hh Ha Hc Ht Hs) as H. unfold doc, expected, past in *.
  destruct (den P j s (m_log (a_m a))) as [l' [e|w]].
  - destruct H as (x & a' & -> & H1 & H2 & H3). simpl. rewrite H1, H2. auto.
  - destruct H as (a' & -> & H1 & H2 & H3 & H4). simpl. rewrite H1, H2. auto.
Qed.

(** After the document, the Parser is ready for the next one, if it was successful. *)
Theorem doc_next P s a M b bufs j a' :
  reads s a M b bufs j -> supported j s = true ->
  document (lift P) g yerr M (b :: bufs) a = AOk a' ->
  history g yerr s a' /\ at_start a'.
Proof.
  intros (Hh & Ha & bs & st & Hc & Ht) Hs H. split.
  - eapply h_document; eauto.
  - unfold document in H. destruct (parse_all (lift P) g yerr M (b :: bufs) a) as [q|x q| |u|]; try discriminate.
    eapply starts_after_finish; eauto.
Qed.
End Outcome.

(** ** A concrete tokenizer, for examples

    One byte is one token: '[' ']' '{' '}' as in JSON, '~' null, a digit an
    integer, a capital letter a key, a small letter a string.  It accepts one
    complete value and rejects anything after it; brackets are only counted. *)
Definition toy_tok (c : ascii) : option token :=
  let n := N_of_ascii c in
  if (n =? 91)%N then Some TArrStart
  else if (n =? 93)%N then Some TArrEnd
  else if (n =? 123)%N then Some TMapStart
  else if (n =? 125)%N then Some TMapEnd
  else if (n =? 126)%N then Some TNull
  else if ((48 <=? n) && (n <=? 57))%N then Some (TSc (SInt (Z.of_N (n - 48))))
  else if ((65 <=? n) && (n <=? 90))%N then Some (TKey (String c ""))
  else if ((97 <=? n) && (n <=? 122))%N then Some (TSc (SStr (String c "")))
  else None.

(** State: the depth, None once the value is complete. *)
Definition toy_byte (st : option nat) (c : ascii) : list token * option (option nat) :=
  match st, toy_tok c with
  | Some d, Some t =>
      match t with
      | TArrStart | TMapStart => ([t], Some (Some (S d)))
      | TArrEnd | TMapEnd =>
          match d with
          | O => ([], None)
          | S O => ([t], Some None)
          | S d' => ([t], Some (Some d'))
          end
      | TKey _ => match d with O => ([], None) | _ => ([t], Some st) end
      | _ => match d with O => ([t], Some None) | _ => ([t], Some st) end
      end
  | _, _ => ([], None)
  end.

Definition toy_fin (st : option nat) : list token * option (option nat) :=
  match st with None => ([], Some None) | Some _ => ([], None) end.

Definition toy : tokenizer := mkTk (Some 0) toy_byte toy_fin.

Definition toy_text (s : string) : list ascii := list_ascii_of_string s.

(** Memory with the texts of a list of buffers. *)
Definition mem_of (texts : list string) : mem :=
  fun n => option_map toy_text (nth_error texts n).

(** A program with no interesting callbacks. *)
Definition yes : prog := mkP (fun _ _ _ => mkA [] None CTrue) (fun _ => "?") (fun _ => None).
