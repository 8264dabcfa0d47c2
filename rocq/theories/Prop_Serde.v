(** Property C31: serialisation. *)
From Coq Require Import String List NArith Arith Bool Lia Permutation Sorted.
From Verif Require Import Base Spec SpecMap SpecOrd SpecTrait SpecSerde Sim IterStd ListModel ListProofs
  VectorModel VectorProofs VectorOps VectorIter VectorHist SparseModel HashModel HashProofs HashHist HashExtra HashExtraProofs Prop_Hash
  RBModel RBProofs RBHist RBIter RBExtra RBExtraProofs Prop_RB TraitModel TraitProofs Prop_Traits.
Import ListNotations.

(** ** Writing.  Whatever the serializer, it is told the exact length, then given the items in
    iteration order, and the first error is the result. *)
Theorem C31_serialize_sequences : forall (T St D E : Type) (ser_begin : option nat -> St + E) (ser_end : St -> D + E) (ser_item : T -> St -> St + E),
  (forall l s, l_reached l s -> l_serialize ser_begin ser_end ser_item l = Ok (ser_doc ser_begin ser_item ser_end s)) /\
  (forall st s, s_reached st s -> s_serialize ser_begin ser_end ser_item st = Ok (ser_doc ser_begin ser_item ser_end s)) /\
  (forall q s, q_reached q s -> q_serialize ser_begin ser_end ser_item q = Ok (ser_doc ser_begin ser_item ser_end s)) /\
  (forall ubits dbg bits v s, (8 <= ubits)%N -> (0 < bits < ubits)%N -> vec_reached ubits dbg bits v s ->
     v_serialize ser_begin ser_end ubits dbg ser_item v = Ok (ser_doc ser_begin ser_item ser_end s)).
Proof.
  intros T St D E sb se si. split; [|split; [|split]].
  - intros l s H. apply l_reached_rep in H. destruct (l_iterates _ _ _ H) as (I & Z). eapply collect_ser_ok; eassumption.
  - intros l s H. apply s_reached_rep in H. destruct (l_iterates _ _ _ H) as (I & Z). eapply collect_ser_ok; eassumption.
  - intros l s H. apply q_reached_rep in H. destruct (q_iterates _ _ _ H) as (I & Z). eapply collect_ser_ok; eassumption.
  - intros ubits dbg bits v s Hu Hb H. destruct (v_iterates _ _ _ _ _ _ Hu Hb H) as (I & Z & _). eapply collect_ser_ok; eassumption.
Qed.
Print Assumptions C31_serialize_sequences.

Theorem C31_serialize_hash : forall (K V Q St D E : Type) (ubits : N) (dbg : bool)
  (keq : K -> K -> bool) (borrow : K -> Q) (qeq : Q -> Q -> bool) (hash : K -> N) (qhash : Q -> N),
  (ubits <= 64)%N -> key_laws keq borrow qeq -> hash_laws borrow qeq hash qhash ->
  forall (ser_begin : option nat -> St + E) (ser_end : St -> D + E) (fuel : nat) (degree : N),
  (forall (m : hmap K V) fm (ser_item : K * V -> St -> St + E), hm_reached ubits dbg keq borrow qeq hash qhash fuel degree m fm ->
     exists l, hm_entries m = Ok l /\ Permutation l fm /\
       hm_serialize ser_begin ser_end ser_item m = Ok (ser_doc ser_begin ser_item ser_end l)) /\
  (forall (m : hset K) s (ser_item : K -> St -> St + E), hs_reached ubits dbg keq borrow qeq hash qhash fuel degree m s ->
     exists l, hs_elems m = Ok l /\ Permutation l s /\
       hs_serialize ser_begin ser_end ser_item m = Ok (ser_doc ser_begin ser_item ser_end l)).
Proof.
  intros K V Q St D E ubits dbg keq borrow qeq hash qhash Hub KL HL sb se fuel degree. split.
  - intros m fm si H. destruct (hm_iterates _ _ _ _ _ _ _ _ _ _ _ _ _ _ Hub KL HL H) as (l & El & Hp & I & Z).
    exists l. split; [exact El|]. split; [exact Hp|]. eapply collect_ser_ok; eassumption.
  - intros m fm si H. destruct (hs_iterates _ _ _ _ _ _ _ _ _ _ _ _ _ Hub KL HL H) as (l & El & Hp & I & Z).
    exists l. split; [exact El|]. split; [exact Hp|]. eapply collect_ser_ok; eassumption.
Qed.
Print Assumptions C31_serialize_hash.

Theorem C31_serialize_rb : forall (K V Q St D E : Type) (dbg : bool)
  (kcmp : K -> K -> comparison) (borrow : K -> Q) (qcmp : Q -> Q -> comparison),
  ord_laws qcmp -> borrow_agrees kcmp borrow qcmp ->
  forall (ser_begin : option nat -> St + E) (ser_end : St -> D + E),
  (forall (m : rbmap K V) fm l (ser_item : K * V -> St -> St + E), rb_reached dbg kcmp borrow qcmp m fm -> Permutation l fm -> sorted kcmp l ->
     rb_serialize ser_begin ser_end kcmp ser_item m = Ok (ser_doc ser_begin ser_item ser_end l)) /\
  (forall (m : rset K) s l (ser_item : K -> St -> St + E), rs_reached dbg kcmp borrow qcmp m s -> Permutation l s ->
     StronglySorted (fun a b => kcmp a b = Lt) l ->
     rs_serialize ser_begin ser_end kcmp ser_item m = Ok (ser_doc ser_begin ser_item ser_end l)).
Proof.
  intros K V Q St D E dbg kcmp borrow qcmp OL KB sb se. pose proof (ord_k kcmp borrow qcmp OL KB) as OK. split.
  - intros m fm l si H Hp Hs. apply rb_reached_rep in H; auto. destruct (rb_iterates _ _ _ _ _ OK H) as (I & Z).
    assert (El : l = elems (rb_root m)).
    { apply (sorted_perm_unique K V kcmp); auto; [apply H|]. destruct H as (_ & Hp' & _). rewrite Hp. now symmetry. }
    rewrite El. eapply collect_ser_ok; eassumption.
  - intros m s l si H Hp Hs. apply rs_reached_rep in H; auto. destruct (rs_iterates _ _ _ _ OK H) as (I & Z).
    assert (El : l = elts m).
    { eapply SS_perm_unique with (R := fun a b => kcmp a b = Lt); [| |exact Hs|exact (elts_sorted kcmp OK m s H)|].
      - intros a Ea. pose proof (ol_sym _ OK a a) as E'. rewrite Ea in E'. discriminate.
      - intros a b c. apply (ol_trans _ OK).
      - rewrite Hp. symmetry. exact (elts_perm kcmp OK m s H). }
    rewrite El. eapply collect_ser_ok; eassumption.
Qed.
Print Assumptions C31_serialize_rb.

(** ** Reading.  What comes out is determined by what the access gives: the items if it ends, the
    error (and no collection) if it fails. *)

(** A length announcement is harmless if a buffer of that many elements can exist. *)
Definition hint_fits (ubits esize : N) (h : option N) : Prop :=
  match h with Some n => (n * esize <= 2 ^ (ubits - 1) - 1)%N | None => True end.

Lemma l_visit_ok : forall A T E (next : A -> option (T * A) + E) ubits esize size_hint a l fin, gives next a l fin ->
  hint_fits ubits esize (size_hint a) -> forall fuel, length l < fuel ->
  l_visit next ubits esize size_hint fuel a = Ok (match fin with None => inl (l_from_iter l) | Some e => Datatypes.inr e end).
Proof.
  intros A T E next ubits esize size_hint a l fin G Hh fuel Hf. unfold l_visit.
  assert (Hc : (match size_hint a with Some capacity => vec_with_capacity ubits esize capacity | None => Ok tt end) = Ok tt).
  { unfold hint_fits in Hh. destruct (size_hint a) as [n|]; [|reflexivity]. unfold vec_with_capacity.
    destruct (N.ltb_spec (2 ^ (ubits - 1) - 1) (n * esize)); [lia|reflexivity]. }
  rewrite Hc. cbn [bind]. rewrite (visit_loop_ok _ _ _ _ _ _ _ _ _ G) by assumption.
  rewrite foldm_snoc. cbn [bind app]. destruct fin; reflexivity.
Qed.

Theorem C31_deserialize_sequences : forall (A T E : Type) (next : A -> option (T * A) + E) (a : A) (l : list T) (fin : option E),
  gives next a l fin -> forall (fuel : nat), length l < fuel ->
  forall (ubits esize : N) (size_hint : A -> option N), hint_fits ubits esize (size_hint a) ->
  match fin with
  | Some e =>
      l_visit next ubits esize size_hint fuel a = Ok (Datatypes.inr e) /\
      s_visit next ubits esize size_hint fuel a = Ok (Datatypes.inr e) /\
      q_visit next ubits esize size_hint fuel a = Ok (Datatypes.inr e)
  | None =>
      (exists c, l_visit next ubits esize size_hint fuel a = Ok (inl c) /\ l_reached c l) /\
      (exists c, s_visit next ubits esize size_hint fuel a = Ok (inl c) /\ s_reached c l) /\
      (exists c, q_visit next ubits esize size_hint fuel a = Ok (inl c) /\ q_reached c l)
  end.
Proof.
  intros A T E next a l fin G fuel Hf ubits esize size_hint Hh.
  pose proof (l_visit_ok _ _ _ next ubits esize size_hint a l fin G Hh fuel Hf) as El.
  unfold s_visit, q_visit. rewrite El. destruct fin as [e|]; cbn [bind]; [auto|]. split; [|split].
  - eexists. split; [reflexivity|]. exists [LFromIter l]. eexists. split; reflexivity.
  - eexists. split; [reflexivity|]. exists (map SPush (rev l)).
    assert (H : forall (vs : list T) (st : rstack T), exists outs,
      exec_m s_step (map SPush vs) st = Ok (mkS (fold_left (fun acc v => l_push_front_mut v acc) vs (s_list st)), outs)).
    { induction vs as [|v vs IH]; intros st; cbn [map exec_m fold_left]; [exists []; now destruct st|].
      cbn [s_step bind]. destruct (IH (s_push v st)) as (outs & ->). cbn [bind]. eexists. reflexivity. }
    destruct (H (rev l) ListModel.s_new) as (outs & E1). exists outs. split; [exact E1|].
    assert (H2 : forall (vs s : list T), fst (exec_s stack_spec (map SPush vs) s) = rev vs ++ s).
    { induction vs as [|v vs IH]; intros s; cbn [map exec_s]; [reflexivity|]. cbn [stack_spec].
      specialize (IH (v :: s)). destruct (exec_s stack_spec (map SPush vs) (v :: s)) as [s' xs]. cbn [fst] in *. rewrite IH.
      cbn [rev]. rewrite <- app_assoc. reflexivity. }
    rewrite H2, rev_involutive, app_nil_r. reflexivity.
  - eexists. split; [reflexivity|]. exists [QFromIter l]. eexists. split; reflexivity.
Qed.
Print Assumptions C31_deserialize_sequences.

(** The announced length is trusted: an access announcing a length no buffer can have makes
    List, Stack and Queue panic although the data is perfectly good.  (The other collections
    ignore it.) *)
Theorem C31_size_hint_trusted_refuted : forall (ubits esize : N), (0 < esize)%N ->
  exists (A : Type) (next : A -> option (nat * A) + unit) (a : A) (size_hint : A -> option N),
    gives next a [1; 2] None /\
    forall fuel, l_visit next ubits esize size_hint fuel a = Panic /\
                 s_visit next ubits esize size_hint fuel a = Panic /\
                 q_visit next ubits esize size_hint fuel a = Panic.
Proof.
  intros ubits esize He.
  exists (list nat), (fun l => match l with [] => inl None | x :: l' => inl (Some (x, l')) end), [1; 2], (fun _ => Some (2 ^ ubits)%N).
  split.
  - eapply gives_item; [reflexivity|]. eapply gives_item; [reflexivity|]. apply gives_end. reflexivity.
  - intros fuel. unfold s_visit, q_visit, l_visit, vec_with_capacity.
    assert (H : (2 ^ (ubits - 1) - 1 <? 2 ^ ubits * esize)%N = true).
    { apply N.ltb_lt. assert (2 ^ (ubits - 1) <= 2 ^ ubits)%N by (apply N.pow_le_mono_r; lia).
      assert (0 < 2 ^ ubits)%N by (apply N.neq_0_lt_0; apply N.pow_nonzero; lia). nia. }
    rewrite H. repeat split.
Qed.
Print Assumptions C31_size_hint_trusted_refuted.

Lemma foldm_v_extend : forall T ubits dbg (l : list T) v, foldm (v_push_back_mut ubits dbg) l v = v_extend ubits dbg v l.
Proof. intros T ubits dbg. induction l as [|x l IH]; intros v; [reflexivity|]. cbn [foldm v_extend]. destruct (v_push_back_mut ubits dbg v x); cbn [bind]; auto. Qed.

Theorem C31_deserialize_vector : forall (A T E : Type) (next : A -> option (T * A) + E) (a : A) (l : list T) (fin : option E),
  gives next a l fin -> forall (fuel : nat), length l < fuel ->
  forall (ubits : N) (dbg : bool), (8 <= ubits)%N -> (N.of_nat (length l) <= vec_limit ubits dbg DEFAULT_BITS)%N ->
  match fin with
  | Some e => v_visit next ubits dbg fuel a = Ok (Datatypes.inr e)
  | None => exists c, v_visit next ubits dbg fuel a = Ok (inl c) /\ vec_reached ubits dbg DEFAULT_BITS c l
  end.
Proof.
  intros A T E next a l fin G fuel Hf ubits dbg Hu Hl. unfold v_visit.
  destruct (v_new (T := T)) as [v0| |] eqn:E0; [|discriminate E0|discriminate E0]. cbn [bind].
  rewrite (visit_loop_ok _ _ _ _ _ _ _ _ _ G) by assumption. rewrite foldm_v_extend.
  assert (Hb : (0 < DEFAULT_BITS)%N) by reflexivity. assert (Hbu : (DEFAULT_BITS < ubits)%N) by (unfold DEFAULT_BITS; lia).
  assert (Hw : stays_within len (vec_limit ubits dbg DEFAULT_BITS) vec_spec [VExtend l] []).
  { cbn [stays_within fst vec_spec app]. unfold len. cbn [length N.of_nat]. repeat split; lia. }
  destruct (v_extend_ok ubits dbg DEFAULT_BITS Hu Hb Hbu l v0 []) as (v & Ev & Hr).
  - exact (v_rep_new ubits dbg DEFAULT_BITS Hu Hb Hbu v0 E0).
  - unfold len. cbn [length N.of_nat]. lia.
  - rewrite Ev. cbn [bind]. destruct fin as [e|]; [reflexivity|].
    exists v. split; [reflexivity|]. exists v0, [VExtend l], [OUnit].
    split; [exact E0|]. split; [exact Hw|]. split; [|reflexivity]. cbn [exec_m v_step]. rewrite Ev. reflexivity.
Qed.
Print Assumptions C31_deserialize_vector.

(** Maps and sets: entries are inserted in order, so of entries with equal keys the last counts. *)
Lemma foldm_rb : forall K V kcmp (l : list (K * V)) m, foldm (fun m kv => rb_insert_mut kcmp m (fst kv) (snd kv)) l m = rb_extend kcmp m l.
Proof. intros K V kcmp. induction l as [|x l IH]; intros m; [reflexivity|]. cbn [foldm rb_extend]. destruct (rb_insert_mut kcmp m (fst x) (snd x)); cbn [bind]; auto. Qed.
Lemma foldm_hm : forall K V ubits dbg keq hash depth (l : list (K * V)) m,
  foldm (fun m kv => hm_insert_mut ubits dbg keq hash depth m (fst kv) (snd kv)) l m = hm_extend ubits dbg keq hash depth m l.
Proof. intros K V ubits dbg keq hash depth. induction l as [|[k v] l IH]; intros m; [reflexivity|]. cbn [foldm hm_extend fst snd]. destruct (hm_insert_mut _ _ _ _ _ m k v); cbn [bind]; auto. Qed.
Lemma foldm_rs : forall T tcmp (l : list T) m, foldm (rs_insert_mut tcmp) l m = rs_extend tcmp m l.
Proof. intros T tcmp. induction l as [|x l IH]; intros m; [reflexivity|]. cbn [foldm rs_extend]. destruct (rs_insert_mut tcmp m x); cbn [bind]; auto. Qed.
Lemma foldm_hs : forall T ubits dbg teq hash depth (l : list T) m,
  foldm (hs_insert_mut ubits dbg teq hash depth) l m = hs_extend ubits dbg teq hash depth m l.
Proof. intros T ubits dbg teq hash depth. induction l as [|x l IH]; intros m; [reflexivity|]. cbn [foldm hs_extend]. destruct (hs_insert_mut _ _ _ _ _ m x); cbn [bind]; auto. Qed.

Definition insert_all {K V} (keq : K -> K -> bool) (l : list (K * V)) : fmap K V :=
  fold_left (fun acc x => fm_insert keq (fst x) (snd x) acc) l [].
Definition add_all {T} (teq : T -> T -> bool) (l : list T) : list T :=
  fold_left (fun acc t => t :: filter (fun x => negb (teq x t)) acc) l [].

Lemma exec_inserts : forall S K V Q keq (borrow : K -> Q) qeq (step : map_op K V Q -> S -> res (S * map_obs K V)) (ins : S -> K * V -> res S),
  (forall s k v, step (MInsertMut k v) s = let! s' := ins s (k, v) in Ok (s', MoUnit)) ->
  forall l s s', foldm ins l s = Ok s' -> exists outs,
    exec_m step (map (fun x => MInsertMut (fst x) (snd x)) l) s = Ok (s', outs) /\
    forall acc, fst (exec_s (map_spec keq borrow qeq) (map (fun x => MInsertMut (fst x) (snd x)) l) acc)
                = fold_left (fun acc x => fm_insert keq (fst x) (snd x) acc) l acc.
Proof.
  intros S K V Q keq borrow qeq step ins Hs. induction l as [|[k v] l IH]; intros s s' H; cbn [foldm map exec_m exec_s fold_left fst snd] in *.
  - injection H as <-. eexists. split; reflexivity.
  - rewrite Hs. destruct (ins s (k, v)) as [s1| |]; cbn [bind] in *; try discriminate.
    destruct (IH s1 s' H) as (outs & E & Hx). rewrite E. cbn [bind]. eexists. split; [reflexivity|].
    intros acc. cbn [map_spec]. specialize (Hx (fm_insert keq k v acc)).
    destruct (exec_s _ _ (fm_insert keq k v acc)) as [s2 xs]. exact Hx.
Qed.
Lemma exec_adds : forall S T Q teq (borrow : T -> Q) qeq (step : set_op T Q -> S -> res (S * set_obs T)) (ins : S -> T -> res S),
  (forall s t, step (SetInsertMut t) s = let! s' := ins s t in Ok (s', SetoUnit)) ->
  forall l s s', foldm ins l s = Ok s' -> exists outs,
    exec_m step (map SetInsertMut l) s = Ok (s', outs) /\
    forall acc, fst (exec_s (set_spec teq borrow qeq) (map SetInsertMut l) acc)
                = fold_left (fun acc t => t :: filter (fun x => negb (teq x t)) acc) l acc.
Proof.
  intros S T Q teq borrow qeq step ins Hs. induction l as [|t l IH]; intros s s' H; cbn [foldm map exec_m exec_s fold_left] in *.
  - injection H as <-. eexists. split; reflexivity.
  - rewrite Hs. destruct (ins s t) as [s1| |]; cbn [bind] in *; try discriminate.
    destruct (IH s1 s' H) as (outs & E & Hx). rewrite E. cbn [bind]. eexists. split; [reflexivity|].
    intros acc. cbn [set_spec]. specialize (Hx (t :: filter (fun x => negb (teq x t)) acc)).
    destruct (exec_s _ _ (t :: filter (fun x => negb (teq x t)) acc)) as [s2 xs]. exact Hx.
Qed.

Theorem C31_deserialize_rb : forall (A K V Q E : Type) (dbg : bool)
  (kcmp : K -> K -> comparison) (borrow : K -> Q) (qcmp : Q -> Q -> comparison),
  ord_laws qcmp -> borrow_agrees kcmp borrow qcmp ->
  (forall (next : A -> option ((K * V) * A) + E) a l fin fuel, gives next a l fin -> length l < fuel ->
     match fin with
     | Some e => rb_visit next kcmp fuel a = Ok (Datatypes.inr e)
     | None => exists c, rb_visit next kcmp fuel a = Ok (inl c) /\ rb_reached dbg kcmp borrow qcmp c (insert_all (eq_of kcmp) l)
     end) /\
  (forall (next : A -> option (K * A) + E) a l fin fuel, gives next a l fin -> length l < fuel ->
     match fin with
     | Some e => rs_visit next kcmp fuel a = Ok (Datatypes.inr e)
     | None => exists c, rs_visit next kcmp fuel a = Ok (inl c) /\ rs_reached dbg kcmp borrow qcmp c (add_all (eq_of kcmp) l)
     end).
Proof.
  intros A K V Q E dbg kcmp borrow qcmp OL KB. split.
  - intros next a l fin fuel G Hf. unfold rb_visit. rewrite (visit_loop_ok _ _ _ _ _ _ _ _ _ G) by assumption.
    destruct (rb_extend_ok kcmp borrow qcmp OL KB l rb_new [] (rb_new_ok kcmp)) as (m & Em & Hm).
    pose proof (foldm_rb K V kcmp l rb_new) as Ef. rewrite Em in Ef. rewrite Ef. cbn [bind]. destruct fin as [e|]; [reflexivity|].
    exists m. split; [reflexivity|].
    destruct (exec_inserts _ K V Q (eq_of kcmp) borrow (eq_of qcmp) (rb_step dbg kcmp borrow qcmp) _ (fun s k v => eq_refl) l rb_new m Ef) as (outs & Ee & Hx).
    eexists _, outs. split; [exact Ee|]. now rewrite Hx.
  - intros next a l fin fuel G Hf. unfold rs_visit. rewrite (visit_loop_ok _ _ _ _ _ _ _ _ _ G) by assumption.
    destruct (rs_extend_ok kcmp borrow qcmp OL KB l rs_new [] (rb_new_ok kcmp)) as (m & Em & Hm).
    pose proof (foldm_rs K kcmp l rs_new) as Ef. rewrite Em in Ef. rewrite Ef. cbn [bind]. destruct fin as [e|]; [reflexivity|].
    exists m. split; [reflexivity|].
    destruct (exec_adds _ K Q (eq_of kcmp) borrow (eq_of qcmp) (rs_step dbg kcmp borrow qcmp) _ (fun s t => eq_refl) l rs_new m Ef) as (outs & Ee & Hx).
    eexists _, outs. split; [exact Ee|]. now rewrite Hx.
Qed.
Print Assumptions C31_deserialize_rb.

(** HashTrieMap and HashTrieSet are rebuilt with the default degree and a fresh hasher. *)
Theorem C31_deserialize_hash : forall (A K V Q E : Type) (ubits : N) (dbg : bool)
  (keq : K -> K -> bool) (borrow : K -> Q) (qeq : Q -> Q -> bool) (hash : K -> N) (qhash : Q -> N),
  (ubits <= 64)%N -> supported ubits ubits -> key_laws keq borrow qeq -> hash_laws borrow qeq hash qhash ->
  forall (depth : nat), 2 * digits ubits < depth ->
  (forall (next : A -> option ((K * V) * A) + E) a l fin fuel, gives next a l fin -> length l < fuel ->
     match fin with
     | Some e => hm_visit next ubits dbg keq hash depth fuel a = Ok (Datatypes.inr e)
     | None => exists c, hm_visit next ubits dbg keq hash depth fuel a = Ok (inl c) /\
                 hm_reached ubits dbg keq borrow qeq hash qhash depth ubits c (insert_all keq l)
     end) /\
  (forall (next : A -> option (K * A) + E) a l fin fuel, gives next a l fin -> length l < fuel ->
     match fin with
     | Some e => hs_visit next ubits dbg keq hash depth fuel a = Ok (Datatypes.inr e)
     | None => exists c, hs_visit next ubits dbg keq hash depth fuel a = Ok (inl c) /\
                 hs_reached ubits dbg keq borrow qeq hash qhash depth ubits c (add_all keq l)
     end).
Proof.
  intros A K V Q E ubits dbg keq borrow qeq hash qhash Hub Hsup KL HL depth Hdep. pose proof Hsup as (b & Hb & Eu & Hd).
  assert (Hd' : (2 ^ b <= ubits)%N) by lia.
  assert (Hf' : (2 * D b < depth)) by (rewrite <- digits_D, <- Eu; exact Hdep). split.
  - intros next a l fin fuel G Hf. unfold hm_visit.
    destruct (hm_new_ok (strict:=true) (V := V) ubits dbg b Hb Hd' Hub keq borrow qeq hash qhash KL HL depth Hf') as (m0 & E0 & H0).
    destruct (hm_extend_ok ubits dbg b Hb Hd' Hub keq borrow qeq hash qhash KL HL depth Hf' l m0 [] H0) as (m & Em & Hm).
    assert (E0' : hm_new_with_degree ubits ubits = Ok m0) by (rewrite Eu at 2; exact E0).
    unfold hm_new, DEFAULT_DEGREE. rewrite E0'. cbn [bind].
    rewrite (visit_loop_ok _ _ _ _ _ _ _ _ _ G) by assumption.
    pose proof (foldm_hm K V ubits dbg keq hash depth l m0) as Ef. rewrite Em in Ef. rewrite Ef. cbn [bind]. destruct fin as [e|]; [reflexivity|].
    exists m. split; [reflexivity|].
    destruct (exec_inserts _ K V Q keq borrow qeq (hm_step ubits dbg keq borrow qeq hash qhash depth) _ (fun s k v => eq_refl) l m0 m Ef) as (outs & Ee & Hx).
    split; [exact Hsup|]. split; [exact Hdep|]. eexists m0, _, outs. split; [exact E0'|]. split; [exact Ee|]. now rewrite Hx.
  - intros next a l fin fuel G Hf. unfold hs_visit.
    destruct (hm_new_ok (strict:=true) (V := unit) ubits dbg b Hb Hd' Hub keq borrow qeq hash qhash KL HL depth Hf') as (m0 & E0 & H0).
    destruct (hs_extend_ok ubits dbg b Hb Hd' Hub keq borrow qeq hash qhash KL HL depth Hf' l m0 [] H0) as (m & Em & Hm).
    assert (E0' : hm_new_with_degree ubits ubits = Ok m0) by (rewrite Eu at 2; exact E0).
    unfold hs_new, hm_new, DEFAULT_DEGREE. rewrite E0'. cbn [bind].
    rewrite (visit_loop_ok _ _ _ _ _ _ _ _ _ G) by assumption.
    pose proof (foldm_hs K ubits dbg keq hash depth l m0) as Ef. rewrite Em in Ef. rewrite Ef. cbn [bind]. destruct fin as [e|]; [reflexivity|].
    exists m. split; [reflexivity|].
    destruct (exec_adds _ K Q keq borrow qeq (hs_step ubits dbg keq borrow qeq hash qhash depth) _ (fun s t => eq_refl) l m0 m Ef) as (outs & Ee & Hx).
    split; [exact Hsup|]. split; [exact Hdep|]. eexists m0, _, outs. split; [exact E0'|]. split; [exact Ee|]. now rewrite Hx.
Qed.
Print Assumptions C31_deserialize_hash.

(** What is read: of entries with equal keys the last one counts. *)
Theorem C31_last_entry_wins : forall (K V Q : Type) (keq : K -> K -> bool) (borrow : K -> Q) (qeq : Q -> Q -> bool),
  key_laws keq borrow qeq -> forall (l : list (K * V)) q,
  fm_find borrow qeq q (insert_all keq l) = find (fun x => qeq (borrow (fst x)) q) (rev l).
Proof.
  intros K V Q keq borrow qeq KL l q. unfold insert_all. rewrite (fold_insert_find K V Q keq borrow qeq KL).
  now destruct (find _ (rev l)).
Qed.
Print Assumptions C31_last_entry_wins.

(** ** Round trips, for every format that carries items over up to equality. *)
Lemma Forall2_length : forall A B (R : A -> B -> Prop) l l', Forall2 R l l' -> length l = length l'.
Proof. intros A B R l l' H. induction H; cbn [length]; auto. Qed.
Lemma Forall2_rev' : forall A B (R : A -> B -> Prop) l l', Forall2 R l l' -> Forall2 R (rev l) (rev l').
Proof. intros A B R l l' H. induction H; [constructor|]. cbn [rev]. apply Forall2_app; [assumption|]. constructor; [assumption|constructor]. Qed.
Lemma seq_equal_Forall2 : forall A (teq : A -> A -> bool) l l', Forall2 (fun a b => teq a b = true) l l' -> seq_equal teq l l'.
Proof. intros A teq l l' H. induction H; cbn [seq_equal]; auto. Qed.

Definition same_entry {K V} (keq : K -> K -> bool) (veq : V -> V -> bool) (a b : K * V) : Prop :=
  keq (fst a) (fst b) = true /\ veq (snd a) (snd b) = true.

Lemma carried_equal : forall K V (keq : K -> K -> bool) (veq : V -> V -> bool), key_laws keq (fun k => k) keq ->
  forall (l l' : list (K * V)) fm, unique_keys keq fm -> Permutation l fm -> Forall2 (same_entry keq veq) l l' ->
  fm_equal keq veq fm (insert_all keq l').
Proof.
  intros K V keq veq KL l l' fm Hu Hp H k.
  pose proof (C31_last_entry_wins K V K keq (fun k => k) keq KL l' k) as E. unfold fm_find in E. rewrite E.
  rewrite (lookup_perm keq KL fm (rev l) k); [|rewrite <- Hp; apply Permutation_rev|assumption].
  clear E. apply Forall2_rev' in H. induction H as [|a b la lb [Hk Hv] H IH]; cbn [find]; [exact I|].
  assert (Ek : keq (fst a) k = keq (fst b) k).
  { destruct (keq (fst b) k) eqn:Eb; [exact (kl_trans _ _ _ KL _ _ _ Hk Eb)|].
    destruct (keq (fst a) k) eqn:Ea; [|reflexivity]. rewrite <- Eb. symmetry. exact (kl_trans _ _ _ KL _ _ _ (kl_sym _ _ _ KL _ _ Hk) Ea). }
  rewrite Ek. destruct (keq (fst b) k); [exact Hv|exact IH].
Qed.

Lemma has_add_all : forall T (teq : T -> T -> bool), key_laws teq (fun k => k) teq -> forall l acc x,
  has teq (fold_left (fun acc t => t :: filter (fun x => negb (teq x t)) acc) l acc) x <-> has teq l x \/ has teq acc x.
Proof.
  intros T teq KL. induction l as [|t l IH]; intros acc x; cbn [fold_left].
  - split; [auto|]. intros [(y & [] & _)|H]; exact H.
  - rewrite IH. unfold has. split.
    + intros [(y & Hy & Ey)|(y & [<-|Hy] & Ey)]; [left; exists y; cbn; auto|left; exists t; cbn; auto|].
      apply filter_In in Hy as [Hy _]. right. exists y. auto.
    + intros [(y & [<-|Hy] & Ey)|(y & Hy & Ey)]; [right; exists t; cbn; auto|left; exists y; auto|].
      destruct (teq y t) eqn:Et.
      * right. exists t. split; [now left|]. exact (kl_trans _ _ _ KL _ _ _ Ey Et).
      * right. exists y. split; [right; apply filter_In; rewrite Et; auto|exact Ey].
Qed.
Lemma carried_set_equal : forall T (teq : T -> T -> bool), key_laws teq (fun k => k) teq ->
  forall (l l' s : list T), Permutation l s -> Forall2 (fun a b => teq a b = true) l l' -> set_equal teq s (add_all teq l').
Proof.
  intros T teq KL l l' s Hp H x. unfold add_all. rewrite has_add_all by exact KL.
  assert (E : has teq s x <-> has teq l' x).
  { transitivity (has teq l x); [unfold has; split; intros (y & Hy & Ey); exists y; split; auto; [now rewrite Hp|now rewrite <- Hp]|].
    clear Hp. unfold has. split; intros (y & Hy & Ey); induction H as [|a b la lb Hab H IH]; try contradiction.
    - destruct Hy as [->|Hy]; [exists b; split; [now left|exact (kl_trans _ _ _ KL _ _ _ Ey Hab)]|].
      destruct (IH Hy) as (z & Hz & Ez). exists z. split; [now right|exact Ez].
    - destruct Hy as [->|Hy]; [exists a; split; [now left|exact (kl_trans _ _ _ KL _ _ _ Ey (kl_sym _ _ _ KL _ _ Hab))]|].
      destruct (IH Hy) as (z & Hz & Ez). exists z. split; [now right|exact Ez]. }
  rewrite E. split; [now left|]. intros [H'|(y & [] & _)]; exact H'.
Qed.

Lemma gives_length_fuel : forall A I E (next : A -> option (I * A) + E) a l fin, gives next a l fin -> exists fuel, length l < fuel.
Proof. intros. eexists. apply Nat.lt_succ_diag_r. Qed.

Section RoundTrip.
Context {T St D E A E' : Type}.
Variable ser_begin : option nat -> St + E.
Variable ser_item : T -> St -> St + E.
Variable ser_end : St -> D + E.
Variable open : D -> A.
Variable next : A -> option (T * A) + E'.
Variable teq : T -> T -> bool.
Definition carries_elements : Prop := carries ser_begin ser_item ser_end open next (fun a b => teq a b = true).
End RoundTrip.

Theorem C31_sequence_round_trip : forall (T St D E A E' : Type)
  (ser_begin : option nat -> St + E) (ser_item : T -> St -> St + E) (ser_end : St -> D + E)
  (open : D -> A) (next : A -> option (T * A) + E') (teq : T -> T -> bool),
  carries_elements ser_begin ser_item ser_end open next teq ->
  forall (ubits esize : N) (size_hint : A -> option N), (forall d, hint_fits ubits esize (size_hint (open d))) ->
  (forall (c : rlist T) s, l_reached c s -> exists d, l_serialize ser_begin ser_end ser_item c = Ok (inl d) /\
     forall fuel, length s < fuel -> exists c', l_visit next ubits esize size_hint fuel (open d) = Ok (inl c') /\ l_eq teq c c' = Ok true) /\
  (forall (c : rstack T) s, s_reached c s -> exists d, s_serialize ser_begin ser_end ser_item c = Ok (inl d) /\
     forall fuel, length s < fuel -> exists c', s_visit next ubits esize size_hint fuel (open d) = Ok (inl c') /\ s_eq teq c c' = Ok true) /\
  (forall (c : rqueue T) s, q_reached c s -> exists d, q_serialize ser_begin ser_end ser_item c = Ok (inl d) /\
     forall fuel, length s < fuel -> exists c', q_visit next ubits esize size_hint fuel (open d) = Ok (inl c') /\ q_eq teq c c' = Ok true) /\
  (forall dbg bits (c : rvec T) s, (8 <= ubits)%N -> (0 < bits < ubits)%N -> vec_reached ubits dbg bits c s ->
     (N.of_nat (length s) <= vec_limit ubits dbg DEFAULT_BITS)%N ->
     exists d, v_serialize ser_begin ser_end ubits dbg ser_item c = Ok (inl d) /\
     forall fuel, length s < fuel -> exists c', v_visit next ubits dbg fuel (open d) = Ok (inl c') /\ v_eq ubits dbg teq c c' = Ok true).
Proof.
  intros T St D E A E' sb si se open next teq HC ubits esize size_hint Hh.
  destruct (C31_serialize_sequences T St D E sb se si) as (S1 & S2 & S3 & S4).
  split; [|split; [|split]].
  - intros c s Hr. destruct (HC s) as (d & l' & Ed & G & F). exists d. rewrite (S1 c s Hr), Ed. split; [reflexivity|].
    intros fuel Hf. pose proof (Forall2_length _ _ _ _ _ F) as EL.
    destruct (C31_deserialize_sequences A T E' next (open d) l' None G fuel ltac:(lia) ubits esize size_hint (Hh d)) as (L & _ & _).
    destruct L as (c' & Ec & Hc'). exists c'. split; [exact Ec|].
    destruct (C28_list_traits T c c' s l' Hr Hc') as (Heq & _). destruct (Heq teq) as (r & Er & Hiff). rewrite Er.
    now rewrite (proj2 Hiff (seq_equal_Forall2 _ _ _ _ F)).
  - intros c s Hr. destruct (HC s) as (d & l' & Ed & G & F). exists d. rewrite (S2 c s Hr), Ed. split; [reflexivity|].
    intros fuel Hf. pose proof (Forall2_length _ _ _ _ _ F) as EL.
    destruct (C31_deserialize_sequences A T E' next (open d) l' None G fuel ltac:(lia) ubits esize size_hint (Hh d)) as (_ & L & _).
    destruct L as (c' & Ec & Hc'). exists c'. split; [exact Ec|].
    destruct (C28_stack_traits T c c' s l' Hr Hc') as (Heq & _). destruct (Heq teq) as (r & Er & Hiff). rewrite Er.
    now rewrite (proj2 Hiff (seq_equal_Forall2 _ _ _ _ F)).
  - intros c s Hr. destruct (HC s) as (d & l' & Ed & G & F). exists d. rewrite (S3 c s Hr), Ed. split; [reflexivity|].
    intros fuel Hf. pose proof (Forall2_length _ _ _ _ _ F) as EL.
    destruct (C31_deserialize_sequences A T E' next (open d) l' None G fuel ltac:(lia) ubits esize size_hint (Hh d)) as (_ & _ & L).
    destruct L as (c' & Ec & Hc'). exists c'. split; [exact Ec|].
    destruct (C28_queue_traits T c c' s l' Hr Hc') as (Heq & _). destruct (Heq teq) as (r & Er & Hiff). rewrite Er.
    now rewrite (proj2 Hiff (seq_equal_Forall2 _ _ _ _ F)).
  - intros dbg bits c s Hu Hb Hr Hlim. destruct (HC s) as (d & l' & Ed & G & F). exists d. rewrite (S4 ubits dbg bits c s Hu Hb Hr), Ed. split; [reflexivity|].
    intros fuel Hf. pose proof (Forall2_length _ _ _ _ _ F) as EL.
    destruct (C31_deserialize_vector A T E' next (open d) l' None G fuel ltac:(lia) ubits dbg Hu ltac:(lia)) as (c' & Ec & Hc').
    exists c'. split; [exact Ec|].
    assert (Hb2 : (0 < DEFAULT_BITS < ubits)%N) by (unfold DEFAULT_BITS; lia).
    destruct (C28_vector_traits T T ubits dbg bits DEFAULT_BITS bits Hu Hb Hb2 Hb c c' c s l' s Hr Hc' Hr) as (Heq & _).
    destruct (Heq teq) as (r & Er & Hiff). rewrite Er.
    now rewrite (proj2 Hiff (seq_equal_Forall2 _ _ _ _ F)).
Qed.
Print Assumptions C31_sequence_round_trip.

(** The original may have any degree and hasher; the copy has the default degree and its own
    hasher ([hash2]). *)
Theorem C31_hash_round_trip : forall (K V Q St D E A E' : Type) (ubits : N) (dbg : bool)
  (keq : K -> K -> bool) (borrow : K -> Q) (qeq : Q -> Q -> bool) (hash1 hash2 : K -> N) (qhash1 qhash2 : Q -> N),
  (ubits <= 64)%N -> supported ubits ubits -> key_laws keq borrow qeq ->
  hash_laws borrow qeq hash1 qhash1 -> hash_laws borrow qeq hash2 qhash2 ->
  forall (depth : nat) (degree : N), 2 * digits ubits < depth ->
  forall (ser_begin : option nat -> St + E) (ser_end : St -> D + E) (open : D -> A),
  (forall (ser_item : K * V -> St -> St + E) (next : A -> option ((K * V) * A) + E') (veq : V -> V -> bool),
     carries ser_begin ser_item ser_end open next (same_entry keq veq) ->
     forall (c : hmap K V) fm, hm_reached ubits dbg keq borrow qeq hash1 qhash1 depth degree c fm ->
     exists d, hm_serialize ser_begin ser_end ser_item c = Ok (inl d) /\
     forall fuel, length fm < fuel -> exists c', hm_visit next ubits dbg keq hash2 depth fuel (open d) = Ok (inl c') /\
       hm_eq ubits dbg keq depth veq hash2 false c c' = Ok true) /\
  (forall (ser_item : K -> St -> St + E) (next : A -> option (K * A) + E'),
     carries_elements ser_begin ser_item ser_end open next keq ->
     forall (c : hset K) s, hs_reached ubits dbg keq borrow qeq hash1 qhash1 depth degree c s ->
     exists d, hs_serialize ser_begin ser_end ser_item c = Ok (inl d) /\
     forall fuel, length s < fuel -> exists c', hs_visit next ubits dbg keq hash2 depth fuel (open d) = Ok (inl c') /\
       hs_eq ubits dbg keq depth hash2 false c c' = Ok true).
Proof.
  intros K V Q St D E A E' ubits dbg keq borrow qeq hash1 hash2 qhash1 qhash2 Hub Hsup KL HL1 HL2 depth degree Hdep sb se open.
  pose proof (key_laws_id keq borrow qeq KL) as KI. split.
  - intros si next veq HC c fm Hr.
    destruct (C31_serialize_hash K V Q St D E ubits dbg keq borrow qeq hash1 qhash1 Hub KL HL1 sb se depth degree) as (S1 & _).
    destruct (S1 c fm si Hr) as (l & _ & Hp & Es). destruct (HC l) as (d & l' & Ed & G & F).
    exists d. rewrite Es, Ed. split; [reflexivity|]. intros fuel Hf.
    pose proof (Forall2_length _ _ _ _ _ F) as EL. pose proof (Permutation_length Hp) as PL.
    destruct (C31_deserialize_hash A K V Q E' ubits dbg keq borrow qeq hash2 qhash2 Hub Hsup KL HL2 depth Hdep) as (V1 & _).
    destruct (V1 next (open d) l' None fuel G ltac:(lia)) as (c' & Ec & Hc'). exists c'. split; [exact Ec|].
    destruct (C17_hash_map_equality K V Q ubits dbg keq borrow qeq hash1 hash2 qhash1 qhash2 Hub KL HL1 HL2 depth degree ubits c c' fm _ Hr Hc' veq false ltac:(discriminate))
      as (r & Er & Hiff). rewrite Er.
    rewrite (proj2 Hiff); [reflexivity|]. eapply carried_equal; [exact KI| |exact Hp|exact F].
    destruct (Prop_Hash.reached_rep _ _ _ _ _ _ _ _ _ _ _ _ _ _ Hub KL HL1 Hr) as (b & _ & _ & _ & _ & (? & _ & _ & _ & ? & _)). assumption.
  - intros si next HC c fm Hr.
    destruct (C31_serialize_hash K unit Q St D E ubits dbg keq borrow qeq hash1 qhash1 Hub KL HL1 sb se depth degree) as (_ & S1).
    destruct (S1 c fm si Hr) as (l & _ & Hp & Es). destruct (HC l) as (d & l' & Ed & G & F).
    exists d. rewrite Es, Ed. split; [reflexivity|]. intros fuel Hf.
    pose proof (Forall2_length _ _ _ _ _ F) as EL. pose proof (Permutation_length Hp) as PL.
    destruct (C31_deserialize_hash A K unit Q E' ubits dbg keq borrow qeq hash2 qhash2 Hub Hsup KL HL2 depth Hdep) as (_ & V1).
    destruct (V1 next (open d) l' None fuel G ltac:(lia)) as (c' & Ec & Hc'). exists c'. split; [exact Ec|].
    destruct (C20_hash_set_relations K Q ubits dbg keq borrow qeq hash1 hash2 qhash1 qhash2 Hub KL HL1 HL2 depth degree ubits c c' fm _ Hr Hc' false ltac:(discriminate))
      as (_ & _ & _ & (r & Er & Hiff) & _). rewrite Er.
    rewrite (proj2 Hiff); [reflexivity|]. eapply carried_set_equal; [exact KI|exact Hp|exact F].
Qed.
Print Assumptions C31_hash_round_trip.

Theorem C31_rb_round_trip : forall (K V Q St D E A E' : Type) (dbg : bool)
  (kcmp : K -> K -> comparison) (borrow : K -> Q) (qcmp : Q -> Q -> comparison),
  ord_laws qcmp -> borrow_agrees kcmp borrow qcmp ->
  forall (ser_begin : option nat -> St + E) (ser_end : St -> D + E) (open : D -> A),
  (forall (ser_item : K * V -> St -> St + E) (next : A -> option ((K * V) * A) + E') (veq : V -> V -> bool),
     carries ser_begin ser_item ser_end open next (same_entry (eq_of kcmp) veq) ->
     forall (c : rbmap K V) fm, rb_reached dbg kcmp borrow qcmp c fm ->
     exists d, rb_serialize ser_begin ser_end kcmp ser_item c = Ok (inl d) /\
     forall fuel, length fm < fuel -> exists c', rb_visit next kcmp fuel (open d) = Ok (inl c') /\
       rb_eq kcmp veq false c c' = Ok true) /\
  (forall (ser_item : K -> St -> St + E) (next : A -> option (K * A) + E'),
     carries_elements ser_begin ser_item ser_end open next (eq_of kcmp) ->
     forall (c : rset K) s, rs_reached dbg kcmp borrow qcmp c s ->
     exists d, rs_serialize ser_begin ser_end kcmp ser_item c = Ok (inl d) /\
     forall fuel, length s < fuel -> exists c', rs_visit next kcmp fuel (open d) = Ok (inl c') /\
       rs_eq kcmp false c c' = Ok true).
Proof.
  intros K V Q St D E A E' dbg kcmp borrow qcmp OL KB sb se open. pose proof (ord_k kcmp borrow qcmp OL KB) as OK.
  pose proof (KLt kcmp OK) as KI. split.
  - intros si next veq HC c fm Hr.
    destruct (C31_serialize_rb K V Q St D E dbg kcmp borrow qcmp OL KB sb se) as (S1 & _).
    pose proof (rb_reached_rep _ _ _ _ _ _ _ _ _ OL KB Hr) as Hrep.
    destruct Hrep as (Hs & Hp & Hrest).
    destruct (HC (elems (rb_root c))) as (d & l' & Ed & G & F).
    exists d. rewrite (S1 c fm _ si Hr Hp Hs), Ed. split; [reflexivity|]. intros fuel Hf.
    pose proof (Forall2_length _ _ _ _ _ F) as EL. pose proof (Permutation_length Hp) as PL.
    destruct (C31_deserialize_rb A K V Q E' dbg kcmp borrow qcmp OL KB) as (V1 & _).
    destruct (V1 next (open d) l' None fuel G ltac:(lia)) as (c' & Ec & Hc'). exists c'. split; [exact Ec|].
    destruct (C27_rb_map_equality K V Q dbg kcmp borrow qcmp OL KB c c' fm _ Hr Hc' veq false ltac:(discriminate)) as (r & Er & Hiff). rewrite Er.
    rewrite (proj2 Hiff); [reflexivity|]. eapply carried_equal; [exact KI| |exact Hp|exact F].
    eapply rep_unique; [exact OL|exact KB|]. exact (rb_reached_rep _ _ _ _ _ _ _ _ _ OL KB Hr).
  - intros si next HC c s Hr.
    destruct (C31_serialize_rb K unit Q St D E dbg kcmp borrow qcmp OL KB sb se) as (_ & S1).
    pose proof (rs_reached_rep _ _ _ _ _ _ _ _ OL KB Hr) as Hrep.
    pose proof (elts_sorted kcmp OK c s Hrep) as Hs. pose proof (elts_perm kcmp OK c s Hrep) as Hp.
    destruct (HC (elts c)) as (d & l' & Ed & G & F).
    exists d. rewrite (S1 c s _ si Hr Hp Hs), Ed. split; [reflexivity|]. intros fuel Hf.
    pose proof (Forall2_length _ _ _ _ _ F) as EL. pose proof (Permutation_length Hp) as PL.
    destruct (C31_deserialize_rb A K unit Q E' dbg kcmp borrow qcmp OL KB) as (_ & V1).
    destruct (V1 next (open d) l' None fuel G ltac:(lia)) as (c' & Ec & Hc'). exists c'. split; [exact Ec|].
    destruct (C30_rb_set_relations K Q dbg kcmp borrow qcmp OL KB c c' s _ Hr Hc' false ltac:(discriminate)) as (_ & _ & _ & (r & Er & Hiff) & _). rewrite Er.
    rewrite (proj2 Hiff); [reflexivity|]. eapply carried_set_equal; [exact KI|exact Hp|exact F].
Qed.
Print Assumptions C31_rb_round_trip.

(** ** A format: a list of tokens with the announced length in front. *)
Inductive tok : Type := TLen (n : nat) | TItem (n : nat).
Definition tk_begin (n : option nat) : list tok + unit := match n with Some n => inl [TLen n] | None => Datatypes.inr tt end.
Definition tk_item (x : nat) (s : list tok) : list tok + unit := inl (s ++ [TItem x]).
Definition tk_pair (x : nat * nat) (s : list tok) : list tok + unit := inl (s ++ [TItem (fst x); TItem (snd x)]).
Definition tk_end (s : list tok) : list tok + unit := inl s.
Definition tk_open (d : list tok) : list tok := tl d.
Definition tk_next (a : list tok) : option (nat * list tok) + unit :=
  match a with [] => inl None | TItem x :: a' => inl (Some (x, a')) | _ => Datatypes.inr tt end.
Definition tk_next_pair (a : list tok) : option ((nat * nat) * list tok) + unit :=
  match a with [] => inl None | TItem x :: TItem y :: a' => inl (Some ((x, y), a')) | _ => Datatypes.inr tt end.

Example tk_carries : carries_elements tk_begin tk_item tk_end tk_open tk_next Nat.eqb.
Proof.
  intros l. unfold ser_doc. cbn [tk_begin].
  assert (H : forall l s, ser_items tk_item l s = inl (s ++ map TItem l)).
  { induction l0 as [|x l0 IH]; intros s; cbn [ser_items map]; [now rewrite app_nil_r|]. cbn [tk_item]. rewrite IH, <- app_assoc. reflexivity. }
  rewrite H. eexists _, l. split; [reflexivity|]. cbn [tk_open tl app]. split.
  - clear H. induction l as [|x l IH]; [apply gives_end; reflexivity|]. eapply gives_item; [reflexivity|exact IH].
  - clear H. induction l; constructor; auto. apply Nat.eqb_refl.
Qed.
Example tk_carries_pair : carries tk_begin tk_pair tk_end tk_open tk_next_pair (same_entry Nat.eqb Nat.eqb).
Proof.
  intros l. unfold ser_doc. cbn [tk_begin].
  assert (H : forall l s, ser_items tk_pair l s = inl (s ++ flat_map (fun x => [TItem (fst x); TItem (snd x)]) l)).
  { induction l0 as [|x l0 IH]; intros s; cbn [ser_items flat_map]; [now rewrite app_nil_r|]. cbn [tk_pair]. rewrite IH, <- app_assoc. reflexivity. }
  rewrite H. eexists _, l. split; [reflexivity|]. cbn [tk_open tl app]. split.
  - clear H. induction l as [|[x y] l IH]; [apply gives_end; reflexivity|]. eapply gives_item; [reflexivity|exact IH].
  - clear H. induction l; constructor; auto. split; apply Nat.eqb_refl.
Qed.

Example C31_case :
  q_serialize tk_begin tk_end tk_item ex_q1 = Ok (inl [TLen 3; TItem 1; TItem 2; TItem 3]) /\
  q_visit tk_next 64 8 (fun _ => Some 3%N) 10 [TItem 1; TItem 2; TItem 3] = Ok (inl (q_from_iter [1; 2; 3])) /\
  q_visit tk_next 64 8 (fun _ => None) 10 [TItem 1; TLen 2; TItem 3] = Ok (Datatypes.inr tt) /\
  rb_visit tk_next_pair Nat.compare 10 [TItem 5; TItem 1; TItem 4; TItem 2; TItem 5; TItem 3]
    = (let! m := rb_extend Nat.compare rb_new [(5, 3); (4, 2)] in Ok (inl m)) /\
  (let! m := hm_visit tk_next_pair 64 true Nat.eqb (fun k => N.of_nat (Nat.modulo k 2)) 40 10 [TItem 1; TItem 7; TItem 3; TItem 8; TItem 1; TItem 9] in
   match m with inl m => hm_entries m | _ => Panic end) = Ok [(1, 9); (3, 8)].
Proof. repeat split; vm_compute; reflexivity. Qed.
