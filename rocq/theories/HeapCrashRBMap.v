(** * RedBlackTreeMap on the heap when user code panics: the calls against their specification *)
From Coq Require Import List NArith Arith Lia Bool Permutation.
From Verif Require Import Base Spec Sim SpecMap SpecOrd RBModel RBProofs RBHist RBIter RBExtra RBExtraProofs Prop_RB CrashModel CrashProofs
  PermSolve HeapModel HeapProofs HeapSafe HeapClient HeapList HeapRB HeapRBProofs HeapRBMap HeapCrashRB HeapCrashRBProofs.
Import ListNotations.
Local Open Scope prog_scope.

Section M.
Context {K V Q : Type}.
Variable dbg : bool.
Variable kcmp : K -> K -> comparison.
Variable borrow : K -> Q.
Variable qcmp : Q -> Q -> comparison.
Hypothesis OL : ord_laws qcmp.
Hypothesis KB : borrow_agrees kcmp borrow qcmp.
Notation C := (rcell K V).
Notation own := (@own C).
Notation safe := (safe (@rkids K V)).
Notation step := (@xb_step K V Q dbg kcmp borrow qcmp).
Notation spec := (@map_spec K V Q (eq_of kcmp) borrow (eq_of qcmp)).
Notation hbrep := (hbrep kcmp).

(** What a call whose [fst no]-th call of user code unwinds may do to a finite map: if it
    completes it does what it should, if it unwinds it does nothing, and it can only unwind if it
    makes more than [fst no] user calls: at most one comparison per level and two clones. *)
Definition rb_after (no : nat * map_op K V Q) (fm fm' : fmap K V) (x : option (map_obs K V)) : Prop :=
  match x with
  | Some y => (fm', y) = spec (snd no) fm
  | None => fm' = fm /\ fst no < rb_levels (length fm) + 2
  end.

Definition rb_xcost (no : nat * map_op K V Q) (size : nat) : nat :=
  match snd no with
  | MInsert _ _ | MInsertMut _ _ => 3 * rb_levels size + 2
  | MRemove _ | MRemoveMut _ => 14 * rb_levels size
  | MGetMut _ _ => rb_levels size + 1
  | _ => 0
  end.

Ltac seq n1 n2 G1 F tac := eapply (safe_seq _ _ _ n1 n2 _ _ G1 F); [tac|perm| |lia].

(** The outcome of a crash model function, by cases. *)
Lemma cruns_cases : forall S A (run : nat -> res (crash S A)) r (Pr : S -> Prop) n, cruns run (Ok r) Pr ->
  (exists m, run n = Ok (Done m r)) \/ (exists s, run n = Ok (Unwound s) /\ Pr s).
Proof using.
  intros S A run r Pr n (c & H). destruct (H n) as (H1 & H2). destruct (Nat.lt_ge_cases n c) as [L|L].
  - right. exact (H2 L).
  - left. rewrite (H1 L). cbn. eauto.
Qed.

Lemma xb_insert_mut_ok : forall n m fm G k v, hbrep m fm G ->
  safe (3 * rb_levels (length fm) + 2) (xb_insert_mut kcmp n m k v) G
    (fun r G' => match r with
                 | Done c m' => c <= n <= c + rb_levels (length fm) /\ hbrep m' (fm_insert (eq_of kcmp) k v fm) G'
                 | Unwound m' => n < rb_levels (length fm) /\ hbrep m' fm G'
                 end).
Proof.
  intros n m fm G k v (w & R & Hz & ts & T & ->). unfold xb_insert_mut.
  destruct (rep_levels kcmp _ _ R) as [L1 L2]. specialize (L2 _ Hz).
  destruct (rb_insert_ok kcmp borrow qcmp OL KB w fm k v R) as (w' & E & R').
  unfold rb_insert_mut, n_insert in E.
  destruct (ins kcmp (rb_root w) k v true) as [[t b]| |] eqn:Ei; try discriminate E. cbn [bind] in E.
  injection E as <-.
  pose proof (c_ins_ok kcmp (rb_root w) k v true) as Ck. rewrite Ei in Ck.
  assert (Y : exists r, c_ins kcmp n (rb_root w) k v true = Ok r /\
    match r with Done c x => c <= n <= c + hgt (rb_root w) /\ x = (t, b) | Unwound s => s = rb_root w /\ n < hgt (rb_root w) end).
  { destruct Ck as (c & Ck). destruct (Ck n) as (C1 & C2). destruct (Nat.lt_ge_cases n c) as [L|L].
    - destruct (C2 L) as (s & E & <-). eexists; (split; [exact E|]). split; [reflexivity|]. eapply c_ins_calls; exact E.
    - eexists. split; [exact (C1 L)|]. cbn [rmap]. split; [|reflexivity]. destruct c as [|c]; [lia|].
      destruct (Ck c) as (_ & C3). destruct (C3 (Nat.lt_succ_diag_r c)) as (s & E & _). apply c_ins_calls in E. lia. }
  destruct Y as (r & E & Hr).
  seq (3 * hgt (rb_root w) + 2) 0 (map (@Tree C) ts) (@nil own)
    ltac:(eapply xins_ok; [|exact T|exact E]; lia).
  intros x G' M. rewrite app_nil_r. destruct x as [c [o b']|o], r as [c' [t' b1]|t']; try contradiction M.
  - destruct Hr as (Hc & Hr). injection Hr as -> ->. destruct M as (-> & -> & Tp). apply safe_ret. split; [lia|].
    eexists. split; [exact R'|]. cbn [rb_size rb_root hb_size hb_root]. split; [destruct b; congruence|exact Tp].
  - destruct Hr as (-> & Hn). apply safe_ret. split; [lia|]. exists w. auto.
Qed.

Lemma xb_remove_mut_ok : forall n m fm G q, hbrep m fm G ->
  safe (14 * rb_levels (length fm)) (xb_remove_mut dbg borrow qcmp n m q) G
    (fun r G' => match r with
                 | Done _ (m', b) => b = is_some (fm_find borrow (eq_of qcmp) q fm) /\
                     hbrep m' (fm_remove borrow (eq_of qcmp) q fm) G'
                 | Unwound m' => n < rb_levels (length fm) /\ hbrep m' fm G'
                 end).
Proof.
  intros n m fm G q (w & R & Hz & ts & T & ->). unfold xb_remove_mut.
  destruct (rep_levels kcmp _ _ R) as [L1 L2]. specialize (L2 _ Hz).
  destruct (rb_remove_ok dbg kcmp borrow qcmp OL KB w fm q R) as (w' & E & R').
  unfold rb_remove_mut, n_remove in E.
  destruct (del dbg borrow qcmp (rb_root w) q true) as [[t b]| |] eqn:Ei; try discriminate E. cbn [bind] in E.
  pose proof (c_del_ok dbg borrow qcmp (rb_root w) q true) as Ck. rewrite Ei in Ck.
  assert (Y : exists r, c_del dbg borrow qcmp n (rb_root w) q true = Ok r /\
    match r with Done _ x => x = (t, b) | Unwound s => s = rb_root w /\ n < hgt (rb_root w) end).
  { destruct (cruns_cases _ _ _ _ _ n Ck) as [(c & E')|(s & E' & <-)]; eexists; (split; [exact E'|]); [reflexivity|].
    split; [reflexivity|]. eapply c_del_calls; exact E'. }
  destruct Y as (r & E' & Hr).
  seq (14 * hgt (rb_root w)) 0 (map (@Tree C) ts) (@nil own)
    ltac:(eapply xdel_ok; [| |exact T|exact E']; lia).
  intros x G' M. rewrite app_nil_r. destruct x as [c [o b']|o], r as [c' [t' b1]|t']; try contradiction M.
  - injection Hr as -> ->. destruct M as (-> & -> & Tp). apply safe_ret.
    destruct b; unfold csub in E.
    + destruct (1 <=? rb_size w); try discriminate E. cbn [bind] in E. injection E as <- <-. split; [reflexivity|].
      eexists. split; [exact R'|]. cbn [rb_size rb_root hb_size hb_root]. split; [congruence|exact Tp].
    + cbn [bind] in E. injection E as <- <-. split; [reflexivity|].
      eexists. split; [exact R'|]. cbn [rb_size rb_root hb_size hb_root]. split; [congruence|exact Tp].
  - destruct Hr as (-> & Hn). apply safe_ret. split; [lia|]. exists w. auto.
Qed.

Lemma xb_get_mut_ok : forall n m fm G q g, hbrep m fm G ->
  safe (rb_levels (length fm) + 1) (xb_get_mut borrow qcmp n m q g) G
    (fun r G' => match r with
                 | Done _ (m', x) => x = option_map snd (fm_find borrow (eq_of qcmp) q fm) /\
                     hbrep m' (fm_modify borrow (eq_of qcmp) q g fm) G'
                 | Unwound m' => n < rb_levels (length fm) + 2 /\ hbrep m' fm G'
                 end).
Proof.
  intros n m fm G q g (w & R & Hz & ts & T & ->). unfold xb_get_mut.
  destruct (rep_levels kcmp _ _ R) as [L1 L2]. specialize (L2 _ Hz).
  destruct (rb_get_mut_ok kcmp borrow qcmp OL KB w fm q g R) as (w' & E & R').
  unfold rb_get_mut in E.
  destruct (t_get_mut borrow qcmp (rb_root w) q g) as [t x] eqn:Ei. injection E as <- Ex.
  seq (S (hgt (rb_root w))) 0 (map (@Tree C) ts) (@nil own)
    ltac:(eapply (xget_mut_ok _ _ _ n (rb_root w) q g); [|exact T]; lia).
  intros y G' (sh & r & E' & M). rewrite app_nil_r.
  pose proof (c_t_get_mut_ok borrow qcmp sh (rb_root w) q g) as Ck. rewrite Ei in Ck.
  assert (Y : match r with Done _ x' => x' = (t, x) | Unwound s => s = rb_root w /\ n < hgt (rb_root w) + 2 end).
  { destruct (cruns_cases _ _ _ _ _ n Ck) as [(c & E1)|(s & E1 & <-)]; rewrite E1 in E'; injection E' as <-; [reflexivity|].
    split; [reflexivity|]. eapply c_get_mut_calls; exact E1. }
  destruct y as [c [o b']|o], r as [c' [t' b1]|t']; try contradiction M.
  - injection Y as -> ->. destruct M as (-> & -> & Tp). apply safe_ret. split; [exact Ex|].
    eexists. split; [exact R'|]. cbn [rb_size rb_root hb_size hb_root]. split; [congruence|exact Tp].
  - destruct Y as (-> & Hn). apply safe_ret. split; [lia|]. exists w. auto.
Qed.

Theorem xb_step_ok : forall o m fm G, hbrep m fm G ->
  safe (rb_xcost o (length fm)) (step o m) G (fun r G' => exists fm', rb_after o fm fm' (snd r) /\ hbrep (fst r) fm' G').
Proof.
  intros [n o] m fm G R. unfold xb_step, seen, rb_xcost, rb_after. cbn [fst snd].
  set (Post := fun (r : hrb * option (map_obs K V)) G' => exists fm', match snd r with
     | Some y => (fm', y) = spec o fm | None => fm' = fm /\ n < rb_levels (length fm) + 2 end /\ hbrep (fst r) fm' G').
  assert (Dn : forall m' y G', hbrep m' (fst (spec o fm)) G' -> y = snd (spec o fm) -> Post (m', Some y) G').
  { intros m' y G' H ->. exists (fst (spec o fm)). cbn [fst snd]. split; [symmetry; apply surjective_pairing|exact H]. }
  assert (Uw : forall m' G', n < rb_levels (length fm) + 2 -> hbrep m' fm G' -> Post (m', None) G').
  { intros m' G' H H'. exists fm. cbn [fst snd]. auto. }
  assert (Get : forall q (f : option (K * V) -> map_obs K V), spec o fm = (fm, f (fm_find borrow (eq_of qcmp) q fm)) ->
    safe 0 (let* r := xfinish (xb_get borrow qcmp n m q) (fun _ => m) (fun x => (m, f x)) in
            match r with Done _ (m0, x) => Ret (m0, Some x) | Unwound m0 => Ret (m0, None) end) G Post).
  { intros q f Es. assert (R' := R). destruct R' as (w & Rw & Hz & ts & T & ->).
    destruct (rep_levels kcmp _ _ Rw) as [L1 L2]. specialize (L2 _ Hz).
    unfold xb_get, xfinish. apply safe_assoc.
    eapply (xget_ok borrow qcmp _ (rb_root w)); [lia|exact T|apply own_lent|].
    intros r Er. destruct (cruns_cases _ _ _ _ _ n (c_t_get_ok borrow qcmp (rb_root w) q)) as [(c & E1)|(s & E1 & _)];
      rewrite E1 in Er; injection Er as <-; cbn [pbind]; apply safe_ret.
    - apply Dn; rewrite Es; [exact R|]. cbn [snd]. now rewrite (rb_get_ok kcmp borrow qcmp OL KB w fm q Rw).
    - apply c_get_calls in E1. apply Uw; [lia|exact R]. }
  destruct o as [k v|k v|q|q|q f|q|q|q| | |]; cbn [xb_call].
  - unfold xb_insert, xfinish. apply safe_assoc, safe_assoc.
    seq 0 (3 * rb_levels (length fm) + 2) G (@nil own) ltac:(apply (hb_clone_ok kcmp m fm G R)).
    intros c G' (G1 & G2 & -> & R1 & R2). apply safe_assoc.
    seq (3 * rb_levels (length fm) + 2) 0 G2 G1 ltac:(apply (xb_insert_mut_ok n c fm G2 k v R2)).
    intros [d c'|c'] G' R'.
    + apply safe_assoc.
      seq 0 0 G1 G' ltac:(apply (hb_drop_ok kcmp m fm G1 R1)). intros [] G3 ->. apply safe_ret. now apply Dn.
    + destruct R' as (Hn & R'). apply safe_assoc.
      seq 0 0 G' G1 ltac:(apply (hb_drop_ok kcmp c' fm G' R')). intros [] G3 ->. apply safe_ret. apply Uw; [lia|exact R1].
  - unfold xfinish. apply safe_assoc.
    seq (3 * rb_levels (length fm) + 2) 0 G (@nil own) ltac:(apply (xb_insert_mut_ok n m fm G k v R)).
    intros [d c'|c'] G' R'; rewrite app_nil_r; apply safe_ret; [now apply Dn|]. destruct R' as (Hn & R'). apply Uw; [lia|exact R'].
  - unfold xb_remove, xfinish. apply safe_assoc, safe_assoc.
    seq 0 (14 * rb_levels (length fm)) G (@nil own) ltac:(apply (hb_clone_ok kcmp m fm G R)).
    intros c G' (G1 & G2 & -> & R1 & R2). apply safe_assoc.
    seq (14 * rb_levels (length fm)) 0 G2 G1 ltac:(apply (xb_remove_mut_ok n c fm G2 q R2)).
    intros [d [c' b]|c'] G' R'.
    + destruct R' as (-> & R'). destruct (is_some (fm_find borrow (eq_of qcmp) q fm)) eqn:E.
      * apply safe_assoc. seq 0 0 G1 G' ltac:(apply (hb_drop_ok kcmp m fm G1 R1)). intros [] G3 ->. apply safe_ret. now apply Dn.
      * apply safe_assoc. seq 0 0 G1 G' ltac:(apply (hb_clone_ok kcmp m fm G1 R1)).
        intros c2 G3 (G4 & G5 & -> & R4 & R5). apply safe_assoc.
        seq 0 0 G' (G4 ++ G5) ltac:(apply (hb_drop_ok kcmp c' _ G' R')). intros [] G6 ->. apply safe_assoc.
        seq 0 0 G4 G5 ltac:(apply (hb_drop_ok kcmp m fm G4 R4)). intros [] G7 ->. apply safe_ret.
        apply Dn; [|reflexivity]. cbn [fst app map_spec]. now rewrite (remove_absent borrow qcmp fm q E).
    + destruct R' as (Hn & R'). apply safe_assoc.
      seq 0 0 G' G1 ltac:(apply (hb_drop_ok kcmp c' fm G' R')). intros [] G3 ->. apply safe_ret. apply Uw; [lia|exact R1].
  - unfold xfinish. apply safe_assoc.
    seq (14 * rb_levels (length fm)) 0 G (@nil own) ltac:(apply (xb_remove_mut_ok n m fm G q R)).
    intros [d [c' b]|c'] G' R'; rewrite app_nil_r; destruct R' as (Hn & R'); apply safe_ret; [|apply Uw; [lia|exact R']].
    subst b. now apply Dn.
  - unfold xfinish. apply safe_assoc.
    seq (rb_levels (length fm) + 1) 0 G (@nil own) ltac:(apply (xb_get_mut_ok n m fm G q f R)).
    intros [d [c' b]|c'] G' R'; rewrite app_nil_r; destruct R' as (Hn & R'); apply safe_ret; [|apply Uw; [lia|exact R']].
    subst b. now apply Dn.
  - apply (Get q (fun o => MoVal (option_map snd o))). reflexivity.
  - apply (Get q (fun o => MoKV o)). reflexivity.
  - apply (Get q (fun o => MoBool (is_some o))). reflexivity.
  - apply safe_ret. apply Dn; [exact R|]. cbn. destruct R as (w & (_ & _ & E & _) & Hz & _). congruence.
  - apply safe_ret. apply Dn; [exact R|]. cbn. destruct R as (w & (_ & _ & E & _) & Hz & _).
    rewrite Hz, E. now destruct fm.
  - apply safe_assoc. seq 0 0 G (@nil own) ltac:(apply (hb_clone_ok kcmp m fm G R)).
    intros c G' (G1 & G2 & -> & R1 & R2). apply safe_assoc.
    seq 0 0 G2 G1 ltac:(apply (hb_drop_ok kcmp c fm G2 R2)). intros [] G3 ->. apply safe_ret. now apply Dn.
Qed.

Lemma rb_after_size : forall o fm fm' x, rb_after o fm fm' x -> length fm' <= S (length fm).
Proof using.
  assert (Fl : forall (f : K * V -> bool) (fm : fmap K V), length (filter f fm) <= length fm).
  { intros f fm. induction fm as [|e fm IH]; [apply le_n|]. cbn [filter]. destruct (f e); cbn [length]; lia. }
  intros [n o] fm fm' [y|] H; cbn in H; [|destruct H as (-> & _); lia].
  destruct o; cbn [map_spec] in H; injection H as -> _; unfold fm_insert, fm_remove, fm_modify; cbn [length];
    rewrite ?map_length; try lia; try (specialize (Fl (fun kv => negb (eq_of kcmp (fst kv) k)) fm); lia);
    match goal with q : Q |- _ => specialize (Fl (fun kv => negb (eq_of qcmp (borrow (fst kv)) q)) fm) end; lia.
Qed.
Lemma rb_levels_mono : forall n m, n <= m -> rb_levels n <= rb_levels m.
Proof using. intros n m H. unfold rb_levels. pose proof (Nat.log2_le_mono (n + 1) (m + 1)). lia. Qed.
Lemma rb_xcost_mono : forall o n m, n <= m -> rb_xcost o n <= rb_xcost o m.
Proof using. intros [c o] n m H. unfold rb_xcost. pose proof (rb_levels_mono _ _ H). destruct o; cbn [snd]; lia. Qed.
End M.
