(** Property C49: how often a HashTrieMap calls the [Hash], [Eq] and [Clone] of its user. *)
From Coq Require Import List NArith Arith Bool Lia Permutation.
From Verif Require Import Base Spec SpecMap Sim ListModel HashModel HashProofs HashHist Prop_Hash LawlessModel LawlessAgree LawlessCount.
Import ListNotations.

(** The hash of the key that a call is given, if it is given one. *)
Definition key_hash {K V Q} (hash : K -> N) (qhash : Q -> N) (o : map_op K V Q) : option N :=
  match o with
  | MInsert k _ | MInsertMut k _ => Some (hash k)
  | MRemove q | MRemoveMut q | MGetMut q _ | MGet q | MGetKeyValue q | MContains q => Some (qhash q)
  | MSize | MIsEmpty | MClone => None
  end.

(** How many keys a call may be compared with, if [n] keys of the map have the hash of its key. *)
Definition compare_limit {K V Q} (degree : N) (o : map_op K V Q) (n : nat) : nat :=
  match o with
  | MInsert _ _ | MInsertMut _ _ => match n with 0 => 0 | 1 => digits degree + 2 | _ => 2 * n end
  | _ => n
  end.

(** A call hashes its key once and first.  Then it compares it with keys of the map, all of
    which have the same hash: none if there are none, at most all of them once for a lookup or
    removal, at most twice for an insertion -- but up to once per level plus two for the first
    key inserted with the hash of another one.  [get_mut] clones an entry if it found one that
    is shared; nothing else clones. *)
Theorem C49_hash_map_calls : forall (K V Q : Type) (ubits : N) (dbg : bool)
  (keq : K -> K -> bool) (borrow : K -> Q) (qeq : Q -> Q -> bool) (hash : K -> N) (qhash : Q -> N),
  (ubits <= 64)%N -> key_laws keq borrow qeq -> hash_laws borrow qeq hash qhash ->
  forall (fuel : nat) (degree : N) (m : hmap K V) (fm : fmap K V),
  hm_reached ubits dbg keq borrow qeq hash qhash fuel degree m fm ->
  forall (shared : bool) (o : map_op K V Q), exists log m',
  hm_step ubits dbg keq borrow qeq hash qhash fuel o m = Ok (m', snd (map_spec keq borrow qeq o fm)) /\
  w_hm_step ubits dbg (noted (pure_hash keq borrow qeq hash qhash)) fuel (tt, []) shared o m
    = Ok (tt, log, Gave (m', snd (map_spec keq borrow qeq o fm))) /\
  match key_hash hash qhash o with
  | None => log = []
  | Some h => exists ks,
      rev log = CHash :: map CEq ks ++
        (match o with MGetMut q _ => if shared && is_some (fm_find borrow qeq q fm) then [CClone] else [] | _ => [] end) /\
      let same := filter (fun x => N.eqb (hash (fst x)) h) fm in
      (forall k, In k ks -> In k (map fst same)) /\ length ks <= compare_limit degree o (length same)
  end.
Proof.
  intros K V Q ubits dbg keq borrow qeq hash qhash Hub KL HL fuel degree m fm Hr shared o.
  apply (reached_rep _ _ _ _ _ _ _ _ _ _ _ _ _ _ Hub KL HL) in Hr as (b & Hb & -> & Hd & Hf & H).
  destruct (hm_step_ok ubits dbg b Hb Hd Hub keq borrow qeq hash qhash KL HL fuel Hf o m fm H) as (m' & E & _).
  set (a := snd (map_spec keq borrow qeq o fm)) in *.
  set (U := @pure_hash unit K V Q keq borrow qeq hash qhash).
  pose proof (un_hm_step ubits dbg U fuel tt [] shared o m) as F.
  unfold U in F at 2. rewrite (agree_hm_step ubits dbg), E in F. unfold good, rmap in F. cbn [bind] in F.
  destruct (w_hm_step ubits dbg (noted U) fuel (tt, []) shared o m) as [[[[] log] x]| |] eqn:Ew; try discriminate.
  unfold unlog in F. cbn [bind fst] in F. injection F as ->.
  destruct H as (es & Hrep & Hh & Hp & Hu & Hs & Hdg).
  destruct (sp_hm_step ubits dbg b Hb Hd Hub U fuel shared o m es tt [] Hrep Hdg _ _ _ Ew) as (l & El & Hl).
  rewrite app_nil_r in El. subst l.
  exists log, m'. split; [exact E|]. split; [reflexivity|].
  assert (Hcnt : forall h, cnt h es = length (filter (fun x => N.eqb (hash (fst x)) h) fm)).
  { intros h. unfold cnt. transitivity (length (filter (fun x : K * V => N.eqb (hash (fst x)) h) (map kv es))).
    - clear -Hh. induction es as [|e es IH]; [reflexivity|]. cbn [map filter]. unfold kv at 1. cbn [fst].
      rewrite (Hh e (or_introl eq_refl)). specialize (IH (fun x Hx => Hh x (or_intror Hx))).
      destruct (N.eqb (hash (e_key e)) h); cbn [length]; now rewrite IH.
    - clear -Hp. induction Hp as [|x l l' _ IH|x y l|l l' l'' _ IH1 _ IH2]; cbn [filter]; [reflexivity| | |congruence].
      + destruct (N.eqb (hash (fst x)) h); cbn [length]; now rewrite IH.
      + destruct (N.eqb (hash (fst x)) h), (N.eqb (hash (fst y)) h); reflexivity. }
  assert (Hcm : forall n h l, cmps n h es l -> exists ks, rev l = map CEq ks /\ length ks <= n /\
     forall k, In k ks -> In k (map fst (filter (fun x => N.eqb (hash (fst x)) h) fm))).
  { intros n h l [H1 H2]. rewrite <- (rev_length l) in H1.
    assert (H3 : forall c, In c (rev l) -> exists e, In e es /\ e_hash e = h /\ c = CEq (e_key e)).
    { intros c Hc. apply H2. now apply in_rev. }
    clear H2. generalize dependent n. induction (rev l) as [|c l0 IH]; intros n H1.
    - exists []. split; [reflexivity|]. split; [simpl; lia|]. intros k [].
    - destruct n as [|n]; [simpl in H1; lia|].
      destruct (IH (fun c Hc => H3 c (or_intror Hc)) n ltac:(simpl in H1; lia)) as (ks & -> & Hk1 & Hk2).
      destruct (H3 c (or_introl eq_refl)) as (e & He & Eh & ->). exists (e_key e :: ks). split; [reflexivity|].
      split; [simpl; lia|]. intros k [<-|Hk]; [|auto]. apply in_map_iff. exists (kv e). split; [reflexivity|].
      apply filter_In. split; [apply (Permutation_in _ Hp); now apply in_map|]. unfold kv. cbn [fst].
      rewrite <- (Hh e He), Eh. apply N.eqb_refl. }
  assert (Hdone : forall h l clones, cmps (compare_limit (2 ^ b) o (cnt h es)) h es l -> log = (rev clones ++ l) ++ [CHash] ->
    exists ks, rev log = CHash :: map CEq ks ++ clones /\
      let same := filter (fun x => N.eqb (hash (fst x)) h) fm in
      (forall k, In k ks -> In k (map fst same)) /\ length ks <= compare_limit (2 ^ b) o (length same)).
  { intros h l clones Hc ->. destruct (Hcm _ _ _ Hc) as (ks & Ek & H1 & H2). exists ks.
    split; [now rewrite !rev_app_distr, rev_involutive, Ek|]. cbv zeta. rewrite <- Hcnt. auto. }
  destruct o as [k v|k v|q|q|q f|q|q|q| | |]; cbn [key_hash op_hash op_calls U pure_hash hc_hash hc_query_hash snd] in *; try exact Hl;
    destruct Hl as (l' & El & Hl).
  - apply (Hdone _ l' []); [|exact El]. cbn [compare_limit]. rewrite digits_D. exact Hl.
  - apply (Hdone _ l' []); [|exact El]. cbn [compare_limit]. rewrite digits_D. exact Hl.
  - now apply (Hdone _ l' []).
  - now apply (Hdone _ l' []).
  - destruct Hl as (lc & l2 & -> & H1 & v & Ev & ->). subst a. cbn [map_spec snd] in Ev. injection Ev as <-.
    apply (Hdone _ l2); [exact H1|]. rewrite El. f_equal. f_equal.
    destruct (fm_find borrow qeq q fm); destruct shared; reflexivity.
  - now apply (Hdone _ l' []).
  - now apply (Hdone _ l' []).
  - now apply (Hdone _ l' []).
Qed.
Print Assumptions C49_hash_map_calls.

(** The limits are reached.  Keys are numbers, hashed modulo 10; the degree is 64 (11 digits).
    After two insertions: a lookup of 3 hears "equal" at once, one of 7 is not compared at all.
    The first key with the hash of another one is compared 12 times, 13 if that one is alone
    after a removal; the fourth key with a hash is compared six times; an absent one thrice. *)
Local Open Scope N_scope.
Definition exc_log (ops : list (map_op N N N)) (o : map_op N N N) : res (list (ucall N)) :=
  let h k := k mod 10 in
  let! m0 := hm_new_with_degree 64 64 in
  let! (m, _) := exec_m (hm_step 64 true N.eqb (fun k => k) N.eqb h h 129) ops m0 in
  let! (w, _) := w_hm_step 64 true (noted (@pure_hash unit N N N N.eqb (fun k => k) N.eqb h h)) 129 (tt, []) true o m in
  Ok (rev (snd w)).
Example C49_example :
  key_laws N.eqb (fun k : N => k) N.eqb /\ hash_laws (fun k : N => k) N.eqb (fun k => k mod 10) (fun k => k mod 10) /\
  exc_log [MInsert 3 0; MInsert 4 0] (MGet 3) = Ok [CHash; CEq 3] /\
  exc_log [MInsert 3 0; MInsert 4 0] (MGet 7) = Ok [CHash] /\
  exc_log [MInsert 3 0; MInsert 4 0] (MInsert 13 0) = Ok (CHash :: repeat (CEq 3) 12) /\
  exc_log [MInsert 3 0; MInsert 4 0; MRemoveMut 4] (MInsert 13 0) = Ok (CHash :: repeat (CEq 3) 13) /\
  exc_log [MInsert 3 0; MInsert 13 0; MInsert 23 0] (MInsert 33 0) = Ok [CHash; CEq 23; CEq 13; CEq 3; CEq 23; CEq 13; CEq 3] /\
  exc_log [MInsert 3 0; MInsert 13 0; MInsert 23 0] (MRemoveMut 33) = Ok [CHash; CEq 23; CEq 13; CEq 3] /\
  exc_log [MInsert 3 0; MInsert 13 0; MInsert 23 0] (MGetMut 13 (N.add 1)) = Ok [CHash; CEq 23; CEq 13; CClone] /\
  exc_log [MInsert 3 0; MInsert 13 0; MInsert 23 0] MSize = Ok [] /\ digits 64 = 11%nat.
Proof.
  split.
  { constructor; intros; try apply N.eqb_refl; try reflexivity;
      repeat match goal with H : (_ =? _) = true |- _ => apply N.eqb_eq in H end; subst; apply N.eqb_refl. }
  split.
  { constructor; [reflexivity|intros a c E; apply N.eqb_eq in E; now subst|].
    intros q. apply N.lt_trans with 10; [apply N.mod_lt; discriminate|]. reflexivity. }
  split; [vm_compute; reflexivity|]. split; [vm_compute; reflexivity|]. split; [vm_compute; reflexivity|].
  split; [vm_compute; reflexivity|]. split; [vm_compute; reflexivity|]. split; [vm_compute; reflexivity|].
  split; [vm_compute; reflexivity|]. split; [vm_compute; reflexivity|]. reflexivity.
Qed.
