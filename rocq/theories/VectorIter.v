(** The double-ended iterator of Vector. *)
From Coq Require Import List NArith ZArith Arith Bool Lia.
From Verif Require Import Base Spec Sim VectorModel VectorProofs VectorOps.
Import ListNotations.

Section VI.
Context {T : Type}.

Fixpoint flat (n : vnode T) : list T :=
  match n with
  | VLeaf a => a
  | VBranch a => flat_map flat a
  end.

(** No empty subtree. *)
Inductive ne : vnode T -> Prop :=
| ne_leaf : forall a, a <> [] -> ne (VLeaf a)
| ne_branch : forall a, a <> [] -> (forall c, In c a -> ne c) -> ne (VBranch a).

Lemma rep_flat : forall bits h n (l : list T), rep bits h n l -> flat n = l.
Proof.
  induction h as [|h IH]; intros n l Hr.
  - destruct Hr as [-> _]. reflexivity.
  - destruct Hr as (cs & -> & Hc & _). simpl. clear -IH Hc.
    induction Hc as [n l HR Hl|n l ns ls HR Hl Hc IHc]; simpl.
    + rewrite app_nil_r. now apply IH.
    + rewrite IHc. f_equal. now apply IH.
Qed.

Lemma crep_in : forall (R : vnode T -> list T -> Prop) C ns l, (0 < C)%N -> crep R C ns l ->
  forall c, In c ns -> exists lc, R c lc /\ (0 < len lc)%N.
Proof.
  intros R C ns l HC H. induction H as [n l HR Hl|n l ns ls HR Hl Hc IH]; intros c Hin.
  - destruct Hin as [<-|[]]. exists l. split; [assumption|lia].
  - destruct Hin as [<-|Hin]; [|auto]. exists l. split; [assumption|lia].
Qed.

Lemma rep_ne : forall bits h n (l : list T), rep bits h n l -> l <> [] -> ne n.
Proof.
  induction h as [|h IH]; intros n l Hr Hne.
  - destruct Hr as [-> _]. now apply ne_leaf.
  - destruct Hr as (cs & -> & Hc & _). apply ne_branch.
    + exact (crep_ne _ _ _ _ _ _ Hc) || (inversion Hc; discriminate).
    + intros c Hin. destruct (crep_in _ _ _ _ (pow2_pos _) Hc c Hin) as (lc & Hr & Hp).
      apply (IH c lc Hr). intros ->. cbn in Hp. lia.
Qed.

(** Consumption order. *)
Definition ord {A} (bw : bool) (l : list A) : list A := if bw then rev l else l.
Definition flatb (bw : bool) (n : vnode T) : list T := ord bw (flat n).

Lemma ord_length : forall A bw (l : list A), length (ord bw l) = length l.
Proof. intros A [|] l; simpl; [apply rev_length|reflexivity]. Qed.

Lemma rev_flat_map : forall A (f : vnode T -> list A) l,
  rev (flat_map f l) = flat_map (fun x => rev (f x)) (rev l).
Proof.
  induction l as [|x l IH]; simpl; [reflexivity|].
  rewrite rev_app_distr, IH, flat_map_app. simpl. now rewrite app_nil_r.
Qed.

Lemma flatb_branch : forall bw a, flatb bw (VBranch a) = flat_map (flatb bw) (ord bw a).
Proof.
  intros [|] a; unfold flatb; simpl; [|reflexivity]. apply rev_flat_map.
Qed.

(** Stack element at position [p] of the consumption order. *)
Definition se_at (n : vnode T) (bw : bool) (p : nat) : selem :=
  (n, if bw then (Z.of_nat (used n) - 1 - Z.of_nat p)%Z else Z.of_nat p).

Lemma se_new_at : forall n bw, se_new n bw = se_at n bw 0.
Proof. intros n [|]; unfold se_new, se_at; simpl; f_equal. lia. Qed.

Lemma se_advance_at : forall n bw p,
  se_advance (se_at n bw p) bw = (se_at n bw (S p), used n <=? S p).
Proof.
  intros n [|] p; unfold se_advance, se_at; cbn [fst snd].
  - replace (Z.of_nat (used n) - 1 - Z.of_nat p - 1)%Z
      with (Z.of_nat (used n) - 1 - Z.of_nat (S p))%Z by lia.
    f_equal. destruct (Z.ltb_spec (Z.of_nat (used n) - 1 - Z.of_nat (S p)) 0);
      destruct (Nat.leb_spec (used n) (S p)); auto; lia.
  - replace (Z.of_nat p + 1)%Z with (Z.of_nat (S p)) by lia.
    f_equal. destruct (Z.leb_spec (Z.of_nat (used n)) (Z.of_nat (S p)));
      destruct (Nat.leb_spec (used n) (S p)); auto; lia.
Qed.

Lemma nth_error_rev : forall A (l : list A) p, p < length l ->
  nth_error (rev l) p = nth_error l (length l - 1 - p).
Proof.
  intros A l p H. destruct l as [|d l0]; [simpl in H; lia|].
  set (l := d :: l0) in *.
  rewrite (nth_error_nth' (rev l) d) by (rewrite rev_length; exact H).
  rewrite (nth_error_nth' l d) by lia.
  f_equal. rewrite rev_nth by assumption. f_equal. lia.
Qed.

Lemma index_at : forall A (a : list A) n bw p, used n = length a -> p < length a ->
  (snd (se_at n bw p) <? 0)%Z = false /\
  nth_error a (Z.to_nat (snd (se_at n bw p))) = nth_error (ord bw a) p.
Proof.
  intros A a n [|] p Hu Hp; unfold se_at; cbn [snd ord].
  - rewrite Hu, nth_error_rev by assumption. split; [apply Z.ltb_ge; lia|]. f_equal. lia.
  - split; [apply Z.ltb_ge; lia|]. f_equal. lia.
Qed.

Lemma at_nth_eq : forall A B (f : A -> res B) l k,
  at_nth f l k = match nth_error l k with Some c => f c | None => Panic end.
Proof.
  induction l as [|x l IH]; intros [|k]; simpl; try reflexivity. apply IH.
Qed.

(** What a stack still has to deliver.  [bden]: only the part above the current subtree. *)
Inductive bden (bw : bool) : list selem -> list T -> Prop :=
| bd_nil : bden bw [] []
| bd_cons : forall a p rest lr, p < length a -> (forall c, In c a -> ne c) -> bden bw rest lr ->
    bden bw (se_at (VBranch a) bw p :: rest) (flat_map (flatb bw) (skipn (S p) (ord bw a)) ++ lr).

Inductive sden (bw : bool) : list selem -> list T -> Prop :=
| sd_nil : sden bw [] []
| sd_leaf : forall a p rest lr, p < length a -> bden bw rest lr ->
    sden bw (se_at (VLeaf a) bw p :: rest) (skipn p (ord bw a) ++ lr).

Lemma skipn_nth : forall A (l : list A) p x, nth_error l p = Some x -> skipn p l = x :: skipn (S p) l.
Proof.
  induction l as [|y l IH]; intros [|p] x H; simpl in *; try discriminate.
  - congruence.
  - now apply IH.
Qed.

Lemma ord_In : forall A bw (l : list A) x, In x (ord bw l) -> In x l.
Proof. intros A [|] l x H; simpl in H; [now apply in_rev|assumption]. Qed.

Lemma dig_from_ok : forall bw n, ne n -> forall rest lr, bden bw rest lr ->
  exists up, dig_from n (snd (se_new n bw)) bw = Ok up /\
             sden bw (up ++ se_new n bw :: rest) (flatb bw n ++ lr).
Proof.
  intros bw n Hne. induction Hne as [a Ha|a Ha Hc IH]; intros rest lr Hrest.
  - exists []. split; [reflexivity|]. rewrite se_new_at. cbn [app].
    change (flatb bw (VLeaf a)) with (skipn 0 (ord bw a)). apply sd_leaf; [|assumption].
    destruct a; [congruence|simpl; lia].
  - assert (Hlen : 0 < length a) by (destruct a; [congruence|simpl; lia]).
    rewrite se_new_at.
    destruct (index_at _ a (VBranch a) bw 0 eq_refl Hlen) as [Hz En].
    cbn [dig_from]. rewrite Hz, at_nth_eq, En.
    destruct (nth_error (ord bw a) 0) as [c|] eqn:E0.
    2:{ apply nth_error_None in E0. rewrite ord_length in E0. lia. }
    assert (Hin : In c a) by (apply nth_error_In in E0; now apply ord_In in E0).
    destruct (IH c Hin (se_at (VBranch a) bw 0 :: rest)
                (flat_map (flatb bw) (skipn 1 (ord bw a)) ++ lr)) as (up & E & Hs).
    { now apply bd_cons. }
    cbv zeta. rewrite E. cbn [bind]. eexists. split; [reflexivity|].
    rewrite <- app_assoc. cbn [app].
    rewrite flatb_branch.
    pose proof (skipn_nth _ _ _ _ E0) as Esk. change (skipn 0 (ord bw a)) with (ord bw a) in Esk.
    rewrite Esk at 1. cbn [flat_map]. rewrite <- app_assoc. exact Hs.
Qed.

(** Digging below a branch element. *)
Lemma dig_branch_ok : forall bw a p rest lr, p < length a -> (forall c, In c a -> ne c) -> bden bw rest lr ->
  exists s', dig (se_at (VBranch a) bw p :: rest) bw = Ok s' /\
             sden bw s' (flat_map (flatb bw) (skipn p (ord bw a)) ++ lr).
Proof.
  intros bw a p rest lr Hp Hc Hrest.
  destruct (index_at _ a (VBranch a) bw p eq_refl Hp) as [Hz En].
  unfold dig, se_at. unfold se_at in Hz, En. cbn [snd] in Hz, En.
  cbn [dig_from]. rewrite Hz, at_nth_eq, En.
  destruct (nth_error (ord bw a) p) as [c|] eqn:E0.
  2:{ apply nth_error_None in E0. rewrite ord_length in E0. lia. }
  assert (Hin : In c a) by (apply nth_error_In in E0; now apply ord_In in E0).
  destruct (dig_from_ok bw c (Hc c Hin) (se_at (VBranch a) bw p :: rest)
              (flat_map (flatb bw) (skipn (S p) (ord bw a)) ++ lr)) as (up & E & Hs).
  { now apply bd_cons. }
  cbv zeta. rewrite E. cbn [bind]. eexists. split; [reflexivity|].
  rewrite (skipn_nth _ _ _ _ E0). cbn [flat_map]. rewrite <- !app_assoc. exact Hs.
Qed.

Lemma bden_advance : forall bw s lr, bden bw s lr ->
  exists s', it_advance s bw = Ok s' /\ sden bw s' lr.
Proof.
  intros bw s lr H. induction H as [|a p rest lr Hp Hc Hrest IH].
  - exists []. split; [reflexivity|constructor].
  - cbn [it_advance]. rewrite se_advance_at. cbn [used].
    destruct (Nat.leb_spec (length a) (S p)) as [Hle|Hgt].
    + rewrite skipn_all2 by (rewrite ord_length; assumption). cbn [flat_map app]. exact IH.
    + now apply dig_branch_ok.
Qed.

Lemma sden_step : forall bw s x l, sden bw s (x :: l) ->
  it_current s = Ok (Some x) /\ exists s', it_advance s bw = Ok s' /\ sden bw s' l.
Proof.
  intros bw s x l H. inversion H as [|a p rest lr Hp Hrest Es El]; subst; clear H.
  destruct (index_at _ a (VLeaf a) bw p eq_refl Hp) as [Hz En].
  destruct (nth_error (ord bw a) p) as [y|] eqn:E0.
  2:{ apply nth_error_None in E0. rewrite ord_length in E0. lia. }
  rewrite (skipn_nth _ _ _ _ E0) in El. rewrite <- app_comm_cons in El.
  assert (Eyx : y = x) by congruence. assert (Ell : l = skipn (S p) (ord bw a) ++ lr) by congruence.
  rewrite Eyx in En. rewrite Ell. clear El Ell.
  split.
  - unfold it_current, se_current_elem, index_z. cbn [se_at fst]. rewrite Hz, En. reflexivity.
  - cbn [it_advance]. rewrite se_advance_at. cbn [used].
    destruct (Nat.leb_spec (length a) (S p)) as [Hle|Hgt].
    + rewrite skipn_all2 by (rewrite ord_length; assumption). cbn [app]. now apply bden_advance.
    + exists (se_at (VLeaf a) bw (S p) :: rest). split; [reflexivity|]. now apply sd_leaf.
Qed.

Section Iter.
Variable ubits : N.
Variable dbg : bool.
Variable bits : N.
Hypothesis Hu : (8 <= ubits)%N.
Hypothesis Hb : (0 < bits)%N.
Hypothesis Hbu : (bits < ubits)%N.
Variable v : rvec T.
Variable l : list T.
Hypothesis Hrep : v_rep bits v l.
Hypothesis Hlt : (len l < 2 ^ ubits)%N.

Lemma height_small : exists h, v_height ubits dbg v = Ok h /\ (h + 1 < 2 ^ ubits)%N.
Proof using ubits dbg bits Hu Hb Hbu v l Hrep Hlt.
  destruct (v_height_rep ubits dbg bits Hu Hb Hbu v l Hrep Hlt) as (h & E & Hs & _).
  exists (N.of_nat h). split; [exact E|].
  pose proof (hspec_shift ubits dbg bits Hu Hb Hbu _ _ Hlt Hs).
  pose proof (u2 ubits dbg bits Hu Hb Hbu). nia.
Qed.

Lemma init_stack_ok : forall bw, exists s, init_stack ubits dbg v bw = Ok s /\
  (l = [] \/ sden bw s (ord bw l)).
Proof using ubits dbg bits Hu Hb Hbu v l Hrep Hlt.
  intros bw. unfold init_stack. destruct height_small as (h & E & Hh). rewrite E. cbn [bind].
  unfold uadd. destruct (N.ltb_spec (h + 1) (2 ^ ubits)); [|lia]. cbn [bind].
  destruct Hrep as (_ & _ & hh & Hs & Hr).
  destruct l as [|x l'] eqn:El.
  - destruct hh as [|hh].
    + destruct Hr as [-> _]. cbn. eexists. split; [reflexivity|]. now left.
    + destruct Hs as [[_ Hs]|[Hs _]]; [lia|]. rewrite len_nil in Hs. lia.
  - rewrite <- El in *. assert (Hne : l <> []) by (rewrite El; discriminate).
    assert (Hnn : ne (v_root v)) by exact (rep_ne bits hh _ _ Hr Hne).
    destruct (dig_from_ok bw (v_root v) Hnn [] [] (bd_nil bw)) as (up & Ed & Hd).
    unfold dig. unfold se_new in *. cbn [snd] in Ed. rewrite Ed. cbn [bind].
    eexists. split; [reflexivity|]. right. unfold flatb in Hd.
    rewrite (rep_flat bits hh _ _ Hr), app_nil_r in Hd. exact Hd.
Qed.

(** The iterator still has to deliver [rem]; [a] was taken from the front, [b] from the back. *)
Definition vi_rep (it : viter) (rem : list T) : Prop :=
  exists a b, l = a ++ rem ++ b /\
    vi_vec it = v /\ vi_left it = len a /\ vi_right it = (len a + len rem)%N /\
    match vi_fwd it with None => a = [] | Some s => l = [] \/ sden false s (rem ++ b) end /\
    match vi_bwd it with None => b = [] | Some s => l = [] \/ sden true s (rev rem ++ rev a) end.

Lemma vi_new_rep : vi_rep (vi_new v) l.
Proof using ubits dbg bits Hu Hb Hbu v l Hrep Hlt.
  exists [], []. rewrite app_nil_r. repeat split. destruct Hrep as (_ & Hl & _). cbn. exact Hl.
Qed.

Lemma vi_init_fwd : forall it rem, vi_rep it rem ->
  exists it', vi_init_if_needed ubits dbg it false = Ok it' /\ vi_rep it' rem /\ vi_fwd it' <> None.
Proof using ubits dbg bits Hu Hb Hbu v l Hrep Hlt.
  intros it rem (a & b & El & Ev & Ea & Er & Hf & Hbw). unfold vi_init_if_needed.
  destruct (vi_fwd it) as [s|] eqn:Ef.
  - exists it. split; [reflexivity|]. split; [|congruence]. exists a, b. rewrite Ef. auto 7.
  - rewrite Ev. destruct (init_stack_ok false) as (s & E & Hs). rewrite E. cbn [bind].
    eexists. split; [reflexivity|]. split; [|discriminate].
    exists a, b. repeat split; auto. cbn [vi_fwd]. subst a. cbn [app] in El. rewrite <- El. exact Hs.
Qed.

Lemma vi_init_bwd : forall it rem, vi_rep it rem ->
  exists it', vi_init_if_needed ubits dbg it true = Ok it' /\ vi_rep it' rem /\ vi_bwd it' <> None.
Proof using ubits dbg bits Hu Hb Hbu v l Hrep Hlt.
  intros it rem (a & b & El & Ev & Ea & Er & Hf & Hbw). unfold vi_init_if_needed.
  destruct (vi_bwd it) as [s|] eqn:Ef.
  - exists it. split; [reflexivity|]. split; [|congruence]. exists a, b. rewrite Ef. auto 7.
  - rewrite Ev. destruct (init_stack_ok true) as (s & E & Hs). rewrite E. cbn [bind].
    eexists. split; [reflexivity|]. split; [|discriminate].
    exists a, b. repeat split; auto. cbn [vi_bwd]. subst b.
    rewrite app_nil_r in El. rewrite <- rev_app_distr, <- El. exact Hs.
Qed.

Lemma vi_nonempty_rep : forall it rem, vi_rep it rem -> vi_non_empty it = negb (is_nil rem).
Proof using ubits dbg bits Hu Hb Hbu v l Hrep Hlt.
  intros it rem (a & b & El & Ev & Ea & Er & _). unfold vi_non_empty. rewrite Ea, Er.
  destruct rem as [|x rem]; cbn [is_nil negb].
  - rewrite len_nil. apply N.ltb_ge. lia.
  - rewrite len_cons. apply N.ltb_lt. lia.
Qed.

Lemma vi_next_ok : forall it rem, vi_rep it rem ->
  exists it', vi_next ubits dbg it = Ok (hd_error rem, it') /\ vi_rep it' (tl rem).
Proof using ubits dbg bits Hu Hb Hbu v l Hrep Hlt.
  intros it rem H. unfold vi_next.
  destruct (vi_init_fwd it rem H) as (it1 & E1 & H1 & Hn1). rewrite E1. cbn [bind]. clear it H E1.
  unfold vi_current_forward, vi_advance_forward. rewrite (vi_nonempty_rep _ _ H1).
  destruct rem as [|x rem]; cbn [is_nil negb].
  - cbn [bind]. eexists. split; [reflexivity|]. exact H1.
  - destruct (vi_fwd it1) as [s|] eqn:Ef; [|congruence]. cbn [unwrap bind].
    destruct H1 as (a & b & El & Ev & Ea & Er & Hf & Hbw). rewrite Ef in Hf.
    destruct Hf as [Hf|Hf]; [rewrite Hf in El; destruct a; discriminate|].
    destruct (sden_step _ _ _ _ Hf) as (Ec & s' & Es & Hs'). rewrite Ec, Es. cbn [bind].
    assert (Hl2 : (len a + 1 < 2 ^ ubits)%N \/ (len a + 1 <= len l)%N).
    { right. rewrite El, !len_app, len_cons. lia. }
    unfold uadd. rewrite Ea. destruct (N.ltb_spec (len a + 1) (2 ^ ubits)); [|lia]. cbn [bind].
    eexists. split; [reflexivity|]. exists (a ++ [x]), b. cbn [tl].
    split; [rewrite El, <- app_assoc; reflexivity|].
    split; [exact Ev|]. split; [rewrite len_app, len_cons, len_nil; cbn; lia|].
    split; [cbn; rewrite Er, len_app, !len_cons, len_nil; lia|].
    split; [right; exact Hs'|].
    cbn [vi_bwd]; destruct (vi_bwd it1) as [t|] eqn:Eb; [|exact Hbw].
    destruct Hbw as [Hbw|Hbw]; [now left|right]. rewrite rev_app_distr. cbn [rev app] in *.
    rewrite <- app_assoc in Hbw. exact Hbw.
Qed.

Lemma vi_next_back_ok : forall it rem, vi_rep it rem ->
  exists it', vi_next_back ubits dbg it = Ok (last_error rem, it') /\ vi_rep it' (removelast rem).
Proof using ubits dbg bits Hu Hb Hbu v l Hrep Hlt.
  intros it rem H. unfold vi_next_back.
  destruct (vi_init_bwd it rem H) as (it1 & E1 & H1 & Hn1). rewrite E1. cbn [bind]. clear it H E1.
  unfold vi_current_backward, vi_advance_backward. rewrite (vi_nonempty_rep _ _ H1).
  destruct rem as [|x rem] using rev_ind; [|clear IHrem].
  - cbn [bind is_nil negb]. eexists. split; [reflexivity|]. exact H1.
  - replace (is_nil (rem ++ [x])) with false by (destruct rem; reflexivity). cbn [negb].
    destruct (vi_bwd it1) as [s|] eqn:Ef; [|congruence]. cbn [unwrap bind].
    destruct H1 as (a & b & El & Ev & Ea & Er & Hf & Hbw). rewrite Ef in Hbw.
    destruct Hbw as [Hbw|Hbw]; [rewrite Hbw in El; destruct a, rem; discriminate|].
    rewrite rev_app_distr in Hbw. cbn [rev app] in Hbw.
    destruct (sden_step _ _ _ _ Hbw) as (Ec & s' & Es & Hs'). rewrite Ec, Es. cbn [bind].
    rewrite Er, len_app, len_cons, len_nil.
    unfold usub. destruct (N.leb_spec 1 (len a + (len rem + (0 + 1)))); [|lia]. cbn [bind].
    rewrite last_error_app, removelast_snoc.
    eexists. split; [reflexivity|]. exists a, (x :: b).
    split; [rewrite El, <- app_assoc; reflexivity|].
    split; [exact Ev|]. split; [exact Ea|]. split; [cbn; lia|].
    split.
    + cbn [vi_fwd]; destruct (vi_fwd it1) as [t|] eqn:Eb; [|exact Hf].
      destruct Hf as [Hf|Hf]; [now left|right]. rewrite <- app_assoc in Hf. exact Hf.
    + right. exact Hs'.
Qed.

Lemma vi_sim2 : iter_sim2 (vi_next ubits dbg) (vi_next_back ubits dbg) (vi_size_hint ubits dbg) vi_rep.
Proof using ubits dbg bits Hu Hb Hbu v l Hrep Hlt.
  intros it rem H. split.
  - destruct H as (a & b & El & Ev & Ea & Er & _). unfold vi_size_hint. rewrite Ea, Er.
    unfold usub. destruct (N.leb_spec (len a) (len a + len rem)); [|lia]. cbn [bind].
    f_equal. unfold len. lia.
  - split; [now apply vi_next_ok|now apply vi_next_back_ok].
Qed.

Lemma vi_runs2 : forall ds,
  runs2 (vi_next ubits dbg) (vi_next_back ubits dbg) (vi_size_hint ubits dbg) ds (vi_new v) = Ok (de_spec ds l).
Proof using ubits dbg bits Hu Hb Hbu v l Hrep Hlt.
  intros ds. exact (sim_runs2 _ _ _ _ _ _ vi_sim2 ds _ _ vi_new_rep).
Qed.

Lemma v_elems_ok : v_elems ubits dbg v = Ok l.
Proof using ubits dbg bits Hu Hb Hbu v l Hrep Hlt.
  unfold v_elems. apply (sim_collect _ _ _ vi_rep).
  - intros s r H. now apply vi_next_ok.
  - exact vi_new_rep.
  - destruct Hrep as (_ & E & _). unfold v_len. rewrite E. unfold len. lia.
Qed.
End Iter.
End VI.
