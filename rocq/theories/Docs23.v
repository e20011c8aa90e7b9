(** Property theorems, part 23: reading takes time linear in the document (C51). *)

From Verif Require Import Spec Model Infra Total Safe Loose Refine Main Api ApiProofs History ApiFacts Closed
  Outcome Docs9 Docs7 Same Lock Json Depth Docs21 Time.
Local Open Scope string_scope.
Set Implicit Arguments.

(** ** C51 *)

(** No call is left out of the count: what a call does and returns is determined by the
    results of the calls that are counted for it. *)
Lemma c51_every_call : forall E g (rec1 rec2 : call -> mstate -> res) c s,
  (forall c' s', In (c', s') (calls_of E g rec1 c s) -> rec1 c' s' = rec2 c' s') ->
  Model.body E g rec1 c s = Model.body E g rec2 c s.
Proof. exact calls_all. Qed.

(** How many calls reading [n] tokens may take, with a declaration of [d] levels. *)
Definition budget (d n : nat) : nat := (8 * d + 1) * n + 7.

Lemma used_height tk yerr s l g (a : api tk) : used yerr s l g a -> height (m_root (a_m a)) = levels s.
Proof.
  intros Hu. destruct (used_veil Hu) as (_ & _ & H). rewrite <- height_levels. apply height_schema.
  rewrite schema_mk. exact H.
Qed.

Lemma calls_budget tk yerr s l g (a : api tk) E ts : used yerr s l g a ->
  total_run E g ts (mkS (m_root (a_m a)) [[]] (m_log (a_m a))) <= budget (levels s) (List.length ts).
Proof.
  intros Hu. pose proof (total_run_bound E g ts (mkS (m_root (a_m a)) [[]] (m_log (a_m a)))) as H.
  cbn [m_stack m_root List.length] in H. rewrite (used_height Hu) in H. unfold budget. lia.
Qed.

(** After any past, whatever the declaration, the tokens and the callbacks, the parsers
    make no more calls for the document than that, whether it is accepted or not. *)
Lemma c51_calls : forall (tk : tokenizer) yerr s l g (a : api tk) E bs,
  used yerr s l g a ->
  total_run E g (fst (tokenize tk bs)) (mkS (m_root (a_m a)) [[]] (m_log (a_m a)))
    <= budget (levels s) (List.length (fst (tokenize tk bs))).
Proof. intros. eapply calls_budget; eauto. Qed.

(** Nor are more callbacks invoked, in any chunks. *)
Lemma c51_callbacks : forall (tk : tokenizer) yerr s l g (a a' : api tk) E M b bufs bs,
  used yerr s l g a -> at_start a -> content M (b :: bufs) = Some bs ->
  (document E g yerr M (b :: bufs) a = AOk a' \/ exists e, document E g yerr M (b :: bufs) a = AThrow e a') ->
  List.length (past a') <= List.length (past a) + budget (levels s) (List.length (fst (tokenize tk bs))).
Proof.
  intros tk yerr s l g a a' E M b bufs bs Hu Ha Hc Hd.
  pose proof (@document_observe tk E g yerr M b bufs bs a Ha Hc) as Ho. unfold doc_obs in Ho.
  pose proof (@c51_calls tk yerr s l g a E bs Hu) as Hb. destruct (tokenize tk bs) as [ts x]. cbn [fst] in *.
  pose proof (told_run E g ts (mkS (m_root (a_m a)) [[]] (m_log (a_m a)))) as Ht. cbn [m_log] in Ht.
  unfold past. enough (Hl : List.length (m_log (a_m a')) = told_in (run E g ts (mkS (m_root (a_m a)) [[]] (m_log (a_m a))))) by lia.
  destruct (run E g ts (mkS (m_root (a_m a)) [[]] (m_log (a_m a)))) as [m|y m|u|]; cbn [told_in].
  - assert (Em : a_m a' = m); [|rewrite Em; auto].
    destruct Hd as [Hd|[e Hd]]; rewrite Hd in Ho; cbn [observe] in Ho;
      destruct x; try destruct (empty_stack m); try discriminate Ho; injection Ho; auto.
  - assert (Em : a_m a' = m); [|rewrite Em; auto].
    destruct Hd as [Hd|[e Hd]]; rewrite Hd in Ho; cbn [observe] in Ho; try discriminate Ho; injection Ho; auto.
  - destruct Hd as [Hd|[e Hd]]; rewrite Hd in Ho; discriminate Ho.
  - destruct Hd as [Hd|[e Hd]]; rewrite Hd in Ho; discriminate Ho.
Qed.

(** A byte of a text ends at most one number and is at most one other token. *)
Definition pend (st : jst) : nat := match j_lex st with LNum _ => 1 | _ => 0 end.

Definition pend_of (x : option jst) : nat := match x with Some st => pend st | None => 0 end.

Lemma plain_pend c e b : List.length (fst (plain c e b)) + pend_of (snd (plain c e b)) <= 1.
Proof.
  unfold plain. destruct (cls_of b); destruct e; try (cbn; lia); destruct c as [|[] c]; cbn; try lia; destruct c; cbn; lia.
Qed.

Lemma byte_pend st b : List.length (fst (j_byte st b)) + pend_of (snd (j_byte st b)) <= 1 + pend st.
Proof.
  destruct st as [c e l]. change (pend (J c e l)) with (match l with LNum _ => 1 | _ => 0 end). unfold j_byte. destruct l as [|[|w ws] t|x|key acc x]; cbn [j_lex].
  - pose proof (plain_pend c e b). lia.
  - cbn. lia.
  - destruct (Ascii.eqb b w); [|cbn; lia]. destruct ws; [|cbn; lia]. unfold ended. cbn. lia.
  - destruct (num_step x b); [cbn; lia|]. unfold andplain. destruct (num_end x); [|cbn; lia].
    pose proof (plain_pend c (j_exp (ended c)) b) as H. destruct (plain c (j_exp (ended c)) b) as [ts r].
    cbn [fst snd List.length] in *. lia.
  - destruct (closes x b); [unfold end_str; destruct key; cbn; lia|]. destruct (str_step acc x b) as [[acc' x']|]; cbn; lia.
Qed.

Lemma tokens_pend bs : forall st,
  List.length (fst (tokens json_tk bs st)) + pend_of (snd (tokens json_tk bs st)) <= List.length bs + pend st.
Proof.
  induction bs as [|b bs IH]; intros st; cbn [tokens]; [cbn [fst snd pend_of List.length]; lia|].
  pose proof (byte_pend st b) as H. change (tk_byte json_tk st b) with (j_byte st b).
  destruct (j_byte st b) as [ts [st'|]]; cbn [fst snd pend_of] in H; [|cbn [fst snd pend_of List.length]; lia].
  specialize (IH st'). destruct (tokens json_tk bs st') as [ts' x]. cbn [fst snd List.length] in *. rewrite app_length. lia.
Qed.

(** A JSON text has no more tokens than bytes. *)
Lemma c51_tokens_json : forall bs, List.length (fst (tokenize json_tk bs)) <= List.length bs.
Proof.
  intros bs. unfold tokenize. pose proof (tokens_pend bs (J [] EVal LNone)) as H.
  change (tk_init json_tk) with (J [] EVal LNone). destruct (tokens json_tk bs (J [] EVal LNone)) as [ts [st|]];
    cbn [fst snd pend_of pend j_lex] in *; [|lia].
  assert (Hf : List.length (fst (j_fin st)) <= pend st).
  { destruct st as [c e l]. unfold j_fin, pend. destruct l; cbn [j_lex]; try (cbn; lia).
    - destruct c; [destruct e|]; cbn; lia.
    - destruct (num_end x); [destruct c|]; cbn; lia. }
  change (tk_fin json_tk st) with (j_fin st). destruct (j_fin st) as [ts' x]. cbn [fst] in *. rewrite app_length. lia.
Qed.

(** So the calls for a JSON document are linear in its bytes. *)
Lemma c51_json : forall yerr s l g (a : api json_tk) E bs,
  used yerr s l g a ->
  total_run E g (fst (tokenize json_tk bs)) (mkS (m_root (a_m a)) [[]] (m_log (a_m a))) <= budget (levels s) (List.length bs).
Proof.
  intros. eapply Nat.le_trans; [eapply calls_budget; eauto|]. unfold budget.
  pose proof (c51_tokens_json bs). apply Nat.add_le_mono_r, Nat.mul_le_mono_l. auto.
Qed.
