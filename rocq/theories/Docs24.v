(** Property theorems, part 24: a long array is its elements, one by one (C52). *)

From Verif Require Import Spec Model Infra Total Safe Refine Main Api ApiProofs History ApiFacts Outcome Access Json Grammar StreamSpec StreamApi Docs12.
From Coq Require Import Permutation.
Local Open Scope string_scope.
Set Implicit Arguments.

(** ** C52 *)

(** The documents of a list, each in its own buffers, one after the other to one Parser:
    parse() and finish() for each, until one fails. *)
Fixpoint one_by_one (tk : tokenizer) g yerr P (ds : list (mem * list nat)) (a : api tk) : ares tk :=
  match ds with
  | [] => AOk a
  | (M, bufs) :: r =>
      match document (lift P) g yerr M bufs a with
      | AOk a' => one_by_one g yerr P r a'
      | x => x
      end
  end.

(** The buffers of [d] hold the text of [j]. *)
Definition text_for (tk : tokenizer) (d : mem * list nat) (j : json) : Prop :=
  exists b bufs bs st, snd d = b :: bufs /\ content (fst d) (b :: bufs) = Some bs /\ tokenize tk bs = (toks j, Some st).

(** The specification of the elements one after the other. *)
Fixpoint in_turn (P : prog) (e : schema) (js : list json) (l : list event) : list event * (exn + list view) :=
  match js with
  | [] => (l, inr [])
  | j :: r => andthen (den P j e l) (fun w l => andthen (in_turn P e r l) (fun ws l => (l, inr (w :: ws))))
  end.

Lemma one_in_turn (tk : tokenizer) g yerr P e : forall ds js (a : api tk),
  history g yerr e a -> at_start a -> Forall2 (text_for tk) ds js -> forallb (fun j => supported j e) js = true ->
  match in_turn P e js (past a) with
  | (l, inr _) => exists a', one_by_one g yerr P ds a = AOk a' /\ past a' = l
  | (l, inl x) => exists y a', one_by_one g yerr P ds a = AThrow y a' /\ past a' = l /\ pe_sj y = caught x
  end.
Proof.
  induction ds as [|[M bufs] ds IH]; intros js a Hh Ha Hf Hs; inversion Hf as [|d j d' js' Ht Hf']; subst.
  - cbn. eauto.
  - cbn [forallb] in Hs. apply andb_prop in Hs. destruct Hs as [Hj Hs].
    destruct Ht as (b & bufs' & bs & st & E1 & E2 & E3). cbn [fst snd] in *. subst bufs.
    assert (Hr : reads g yerr e a M b bufs' j) by (split; auto; split; eauto).
    pose proof (doc_expected P Hr Hj) as Hd. cbn [in_turn one_by_one]. unfold doc in Hd.
    destruct (den P j e (past a)) as [l [x|w]]; cbn [expected andthen] in *.
    + destruct (document (lift P) g yerr M (b :: bufs') a) as [q|y q| |u|]; cbn [result] in Hd; try discriminate Hd.
      injection Hd as D1 D2. exists y, q. auto.
    + destruct (document (lift P) g yerr M (b :: bufs') a) as [q|y q| |u|] eqn:Hq; cbn [result] in Hd; try discriminate Hd.
      injection Hd as D1 D2. destruct (doc_next P Hr Hj Hq) as [Hh' Ha']. specialize (IH js' q Hh' Ha' Hf' Hs).
      unfold past in IH at 1. rewrite D1 in IH. destruct (in_turn P e js' l) as [l' [x|ws]]; cbn [andthen]; auto.
Qed.

Lemma elems_in_turn P e js : forall emp l, exists emp',
  elems P (den P) false e None js emp [] l =
  andthen (in_turn P e js l) (fun _ l => (l, inr (View true emp' None 0 []))).
Proof.
  induction js as [|j js IH]; intros emp l.
  - exists emp. reflexivity.
  - assert (Hn : exists emp', andthen (den P j e l) (fun w l => elems P (den P) false e None js false [] l) =
      andthen (in_turn P e (j :: js) l) (fun _ l => (l, inr (View true emp' None 0 [])))).
    { cbn [in_turn]. destruct (den P j e l) as [l1 [x|w]]; cbn [andthen]; [exists true; reflexivity|].
      destruct (IH false l1) as [emp' ->]. exists emp'. destruct (in_turn P e js l1) as [l2 [x|ws]]; reflexivity. }
    destruct j; try exact Hn. cbn [elems in_turn den andthen]. destruct (IH emp l) as [emp' ->]. exists emp'.
    destruct (in_turn P e js l) as [l2 [x|ws]]; reflexivity.
Qed.

Lemma supported_elems st e js : supported (JArr js) (SArr st e None) = true -> forallb (fun j => supported j e) js = true.
Proof.
  cbn [supported]. intros H. apply andb_prop in H. destruct H as [_ H]. rewrite forallb_forall in *. intros j Hj. specialize (H j Hj).
  destruct j; auto.
Qed.

(** Array: the document [r1, ..., rn] for Array{e} does what the documents r1, ..., rn do for
    a Parser of e: the same callbacks with the same arguments in the same order, and the
    same error if there is one. *)
Lemma c52_array : forall (tk tk' : tokenizer) g g' yerr yerr' P e (a : api tk) (a1 : api tk') M b bufs js ds,
  reads g yerr (SArr false e None) a M b bufs (JArr js) -> supported (JArr js) (SArr false e None) = true ->
  history g' yerr' e a1 -> at_start a1 -> past a1 = past a -> Forall2 (text_for tk') ds js ->
  match one_by_one g' yerr' P ds a1 with
  | AOk a1' => exists w, doc g yerr P M b bufs a = Parsed (past a1') w /\ v_set w = true
  | AThrow y a1' => doc g yerr P M b bufs a = Failed (past a1') (pe_sj y)
  | _ => False
  end.
Proof.
  intros tk tk' g g' yerr yerr' P e a a1 M b bufs js ds Hr Hs Hh Ha Hp Hf.
  rewrite (doc_expected P Hr Hs). cbn [den]. destruct (elems_in_turn P e js true (past a)) as [emp ->].
  pose proof (one_in_turn P Hh Ha Hf (supported_elems _ _ _ Hs)) as K. rewrite Hp in K.
  destruct (in_turn P e js (past a)) as [l [x|ws]]; cbn [andthen expected].
  - destruct K as (y & a' & -> & <- & ->). reflexivity.
  - destruct K as (a' & -> & <-). eexists. split; reflexivity.
Qed.

(** The same with the values that get() of the root parser returns after each document. *)
Fixpoint collect (tk : tokenizer) g yerr P (ds : list (mem * list nat)) (a : api tk) : option (list value * api tk) :=
  match ds with
  | [] => Some ([], a)
  | (M, bufs) :: r =>
      match document (lift P) g yerr M bufs a with
      | AOk a' =>
          match get_value (m_root (a_m a')), collect g yerr P r a' with
          | Some v, Some (vs, a2) => Some (v :: vs, a2)
          | _, _ => None
          end
      | _ => None
      end
  end.

Lemma collect_in_turn (tk : tokenizer) g yerr P e : forall ds js (a a' : api tk) vs,
  history g yerr e a -> at_start a -> Forall2 (text_for tk) ds js -> forallb (fun j => supported j e) js = true ->
  collect g yerr P ds a = Some (vs, a') ->
  exists ws, in_turn P e js (past a) = (past a', inr ws) /\ Forall2 (fun w v => v_val w = Some v) ws vs.
Proof.
  induction ds as [|[M bufs] ds IH]; intros js a a' vs Hh Ha Hf Hs Hk; inversion Hf as [|d j d' js' Ht Hf']; subst.
  - cbn in Hk. injection Hk as <- <-. exists []. split; [reflexivity|constructor].
  - cbn [forallb] in Hs. apply andb_prop in Hs. destruct Hs as [Hj Hs].
    destruct Ht as (b & bufs' & bs & st & E1 & E2 & E3). cbn [fst snd] in *. subst bufs.
    assert (Hr : reads g yerr e a M b bufs' j) by (split; auto; split; eauto).
    pose proof (doc_expected P Hr Hj) as Hd. cbn [in_turn collect] in *. unfold doc in Hd.
    destruct (document (lift P) g yerr M (b :: bufs') a) as [q|y q| |u|] eqn:Hq; try discriminate Hk. cbn [result] in Hd.
    destruct (get_value (m_root (a_m q))) as [v|] eqn:Hv; [|discriminate Hk].
    destruct (collect g yerr P ds q) as [[vs' a2]|] eqn:Hc; [|discriminate Hk]. injection Hk as <- <-.
    destruct (doc_next P Hr Hj Hq) as [Hh' Ha']. destruct (IH js' q a2 vs' Hh' Ha' Hf' Hs Hc) as (ws & I1 & I2).
    destruct (den P j e (past a)) as [l [x|w]]; cbn [expected andthen] in *; [discriminate Hd|]. injection Hd as D1 D2.
    unfold past in I1 at 1. rewrite D1 in I1. rewrite I1. cbn [andthen]. exists (w :: ws). split; auto. constructor; auto.
    rewrite <- D2, view_val. exact Hv.
Qed.

Lemma elems_values P e cb js : forallb (fun j => negb (is_null j)) js = true -> forall ws vs l l' emp vals,
  in_turn P e js l = (l', inr ws) -> Forall2 (fun w v => v_val w = Some v) ws vs -> (forall v, In v vs -> p_store P v = None) ->
  exists emp', elems P (den P) true e cb js emp vals l = end_array P true cb emp' (vals ++ vs)%list l'.
Proof.
  induction js as [|j js IH]; intros Hn ws vs l l' emp vals Ht Hw Hp.
  - cbn in Ht. injection Ht as <- <-. inversion Hw; subst. rewrite app_nil_r. exists emp. reflexivity.
  - cbn [forallb] in Hn. apply andb_prop in Hn. destruct Hn as [Hj Hn]. cbn [in_turn] in Ht.
    assert (Hd : elems P (den P) true e cb (j :: js) emp vals l = andthen (den P j e l) (fun w l =>
      match v_val w with
      | Some v => andthen (l, storing P v) (fun v l => elems P (den P) true e cb js false (vals ++ [v])%list l)
      | None => err l msg_unset
      end)) by (destruct j; [discriminate Hj|reflexivity|reflexivity|reflexivity]).
    rewrite Hd. destruct (den P j e l) as [l1 [x|w]]; cbn [andthen] in *; [discriminate Ht|].
    destruct (in_turn P e js l1) as [l2 [x|ws']] eqn:Ht'; cbn [andthen] in *; [discriminate Ht|]. injection Ht as <- <-.
    inversion Hw as [|w0 v ws0 vs' Hv Hw']; subst. rewrite Hv. unfold storing. rewrite (Hp v (or_introl eq_refl)). cbn [andthen].
    destruct (IH Hn ws' vs' l1 l2 false (vals ++ [v])%list Ht' Hw') as [emp' He]; [intros; apply Hp; right; auto|].
    exists emp'. rewrite He, <- app_assoc. reflexivity.
Qed.

(** SArray: its value is the values of the elements, each read as a document of its own. *)
Lemma c52_sarray : forall (tk tk' : tokenizer) g g' yerr yerr' P e (a : api tk) (a1 a1' : api tk') M b bufs js ds vs,
  reads g yerr (SArr true e None) a M b bufs (JArr js) -> supported (JArr js) (SArr true e None) = true ->
  forallb (fun j => negb (is_null j)) js = true ->
  history g' yerr' e a1 -> at_start a1 -> past a1 = past a -> Forall2 (text_for tk') ds js ->
  collect g' yerr' P ds a1 = Some (vs, a1') -> (forall v, In v vs -> p_store P v = None) ->
  exists w, doc g yerr P M b bufs a = Parsed (past a1') w /\ v_set w = true /\ v_val w = Some (VVec vs).
Proof.
  intros tk tk' g g' yerr yerr' P e a a1 a1' M b bufs js ds vs Hr Hs Hn Hh Ha Hp Hf Hk Hst.
  rewrite (doc_expected P Hr Hs). cbn [den].
  destruct (collect_in_turn P Hh Ha Hf (supported_elems _ _ _ Hs) Hk) as (ws & Ht & Hw). rewrite Hp in Ht.
  destruct (@elems_values P e None js Hn ws vs (past a) (past a1') true [] Ht Hw Hst) as [emp ->]. cbn [end_array invoke expected app].
  eexists. split; [reflexivity|]. split; reflexivity.
Qed.

Lemma body_in_turn P e kvs : sup_body supported kvs (SMp false e None None) = true -> forall kids vals emp l,
  forallb (fun j => supported j e) (map snd kvs) = true ->
  exists emp', Spec.body P (den P) kvs (SMp false e None None) emp kids vals l =
  andthen (in_turn P e (map snd kvs) l) (fun _ l => (l, inr (View true emp' None 0 []))).
Proof.
  induction kvs as [|[k v] kvs IH]; intros Hs kids vals emp l Hj.
  - exists emp. reflexivity.
  - cbn [map snd forallb] in Hj. apply andb_prop in Hj. destruct Hj as [Hv Hj]. cbn [sup_body] in Hs.
    cbn [Spec.body map snd in_turn]. unfold value_of, sup_value in *. destruct (embedded e v) as [[[[[st t] ms] cb] x]|] eqn:He.
    + exists true. destruct e; try discriminate He. cbn [embedded] in He. destruct v; try discriminate He.
      destruct (String.eqb tm ""); [|discriminate He]. injection He as -> -> -> -> ->. cbn [supported] in Hv.
      unfold select. cbn [den]. destruct (vtype_eqb (ty_of x) t); [discriminate Hv|reflexivity].
    + apply andb_prop in Hs. destruct Hs as [_ Hs]. destruct (den P v e l) as [l1 [x|w]]; cbn [andthen]; [exists true; reflexivity|].
      cbn [end_map_elem invoke andthen snd fst]. destruct (IH Hs kids vals false l1 Hj) as [emp' ->]. exists emp'.
      destruct (in_turn P e (map snd kvs) l1) as [l2 [x|ws]]; reflexivity.
Qed.

(** Map: the same for the values of the pairs, whatever the keys. *)
Lemma c52_map : forall (tk tk' : tokenizer) g g' yerr yerr' P e (a : api tk) (a1 : api tk') M b bufs kvs ds,
  reads g yerr (SMp false e None None) a M b bufs (JObj kvs) -> supported (JObj kvs) (SMp false e None None) = true ->
  forallb (fun kv => supported (snd kv) e) kvs = true ->
  history g' yerr' e a1 -> at_start a1 -> past a1 = past a -> Forall2 (text_for tk') ds (map snd kvs) ->
  match one_by_one g' yerr' P ds a1 with
  | AOk a1' => exists w, doc g yerr P M b bufs a = Parsed (past a1') w /\ v_set w = true
  | AThrow y a1' => doc g yerr P M b bufs a = Failed (past a1') (pe_sj y)
  | _ => False
  end.
Proof.
  intros tk tk' g g' yerr yerr' P e a a1 M b bufs kvs ds Hr Hs Hj Hh Ha Hp Hf.
  rewrite (doc_expected P Hr Hs). cbn [den].
  assert (Hj' : forallb (fun j => supported j e) (map snd kvs) = true).
  { rewrite forallb_forall in *. intros j Hin. apply in_map_iff in Hin. destruct Hin as (kv & <- & Hin). auto. }
  destruct (body_in_turn P e kvs Hs (fresh_kids (SMp false e None None)) [] true (past a) Hj') as [emp ->].
  pose proof (one_in_turn P Hh Ha Hf Hj') as K. rewrite Hp in K.
  destruct (in_turn P e (map snd kvs) (past a)) as [l [x|ws]]; cbn [andthen expected].
  - destruct K as (y & a' & -> & <- & ->). reflexivity.
  - destruct K as (a' & -> & <-). eexists. split; reflexivity.
Qed.

(** And not only in the end: when the first elements have arrived, their callbacks have been
    invoked, and no others. *)
Lemma pelems_in_turn P e js : forall emp l, exists emp',
  pelems P (fun emp l => (l, inr (opened emp []))) false e js emp l =
  andthen (in_turn P e js l) (fun _ l => (l, inr (opened emp' []))).
Proof.
  induction js as [|j js IH]; intros emp l.
  - exists emp. reflexivity.
  - assert (Hn : exists emp', andthen (den P j e l) (fun w l => pelems P (fun emp l => (l, inr (opened emp []))) false e js false l) =
      andthen (in_turn P e (j :: js) l) (fun _ l => (l, inr (opened emp' [])))).
    { cbn [in_turn]. destruct (den P j e l) as [l1 [x|w]]; cbn [andthen]; [exists true; reflexivity|].
      destruct (IH false l1) as [emp' ->]. exists emp'. destruct (in_turn P e js l1) as [l2 [x|ws]]; reflexivity. }
    destruct j; try exact Hn. cbn [pelems in_turn den andthen]. destruct (IH emp l) as [emp' ->]. exists emp'.
    destruct (in_turn P e js l) as [l2 [x|ws]]; reflexivity.
Qed.

Lemma c52_as_they_arrive : forall (tk tk' : tokenizer) g g' yerr yerr' P e (a : api tk) (a1 : api tk') M b bufs js ds,
  receives g yerr (SArr false e None) a M b bufs (TArrStart :: flat_map toks js) ->
  supported (JArr js) (SArr false e None) = true ->
  history g' yerr' e a1 -> at_start a1 -> past a1 = past a -> Forall2 (text_for tk') ds js ->
  match one_by_one g' yerr' P ds a1 with
  | AOk a1' => exists w, fed g yerr P M b bufs a = Parsed (past a1') w /\ v_set w = false
  | AThrow y a1' => fed g yerr P M b bufs a = Failed (past a1') (pe_sj y)
  | _ => False
  end.
Proof.
  intros tk tk' g g' yerr yerr' P e a a1 M b bufs js ds Hr Hs Hh Ha Hp Hf.
  assert (Hps : psupported (PtArr js) (SArr false e None) = true) by (pose proof Hs as Hs2; cbn [supported psupported psup_arr] in *; rewrite andb_true_r || idtac; exact Hs2).
  rewrite (@c41_beginning_outcome tk g yerr P (SArr false e None) a M b bufs (PtArr js) Hr Hps). cbn [pden]. unfold parr.
  destruct (pelems_in_turn P e js true (past a)) as [emp ->].
  pose proof (one_in_turn P Hh Ha Hf (supported_elems _ _ _ Hs)) as K. rewrite Hp in K.
  destruct (in_turn P e js (past a)) as [l [x|ws]]; cbn [andthen expected].
  - destruct K as (y & a' & -> & <- & ->). reflexivity.
  - destruct K as (a' & -> & <-). eexists. split; reflexivity.
Qed.
