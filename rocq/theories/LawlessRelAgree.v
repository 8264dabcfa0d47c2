(** The relations of LawlessRelModel.v are those of RBExtra.v and HashExtra.v if the user code
    is lawful. *)
From Coq Require Import List NArith Arith Bool Lia.
From Verif Require Import Base Spec SpecMap SpecOrd SpecTrait SpecSerde SpecTalk Sim ListModel VectorModel SparseModel RBModel HashModel HashProofs IterStd RBExtra HashExtra TraitModel
  TraitProofs LawlessModel LawlessAgree LawlessHash LawlessRelModel LawlessRel LawlessRelHash.
Import ListNotations.

Definition steps_as {W S1 S2 A} (next : S1 -> res (option A * S1)) (wnext : w_next W S2 A) (R : S1 -> S2 -> Prop) : Prop :=
  forall w i j, R i j -> match next i with
  | Ok (o, i') => exists j', wnext w j = Ok (w, Gave (o, j')) /\ R i' j'
  | Panic => wnext w j = Panic
  | Diverge => wnext w j = Diverge
  end.

Section Adapters.
Context {W S1 S2 T1 T2 A B : Type}.
Variable next1 : S1 -> res (option A * S1).
Variable next2 : S2 -> res (option B * S2).
Variable wnext1 : w_next W T1 A.
Variable wnext2 : w_next W T2 B.
Variable R1 : S1 -> T1 -> Prop.
Variable R2 : S2 -> T2 -> Prop.
Hypothesis H1 : steps_as next1 wnext1 R1.
Hypothesis H2 : steps_as next2 wnext2 R2.

Ltac step H w i j Hij :=
  let X := fresh in pose proof (H w i j Hij) as X;
  match type of X with match ?r with _ => _ end => destruct r as [[? ?]| |] end;
  [destruct X as (? & -> & ?)|rewrite X|rewrite X]; cbn [wbind bind]; try reflexivity.

Lemma agree_partial_cmp : forall cmp fuel w i1 i2 j1 j2, R1 i1 j1 -> R2 i2 j2 ->
  w_iter_compare wnext1 wnext2 (fun w ab => (w, Some (cmp (fst ab) (snd ab)))) is_equal Some fuel w j1 j2
  = good w (iter_partial_cmp next1 next2 cmp fuel i1 i2).
Proof using H1 H2.
  intros cmp. induction fuel as [|fuel IH]; intros w i1 i2 j1 j2 K1 K2; cbn [w_iter_compare iter_partial_cmp]; [reflexivity|].
  step H1 w i1 j1 K1. destruct o as [a|].
  - step H2 w i2 j2 K2. destruct o as [b|]; [|reflexivity]. cbn [fst snd wcall].
    destruct (cmp a b) as [[| |]|]; cbn [is_equal]; try reflexivity. now apply IH.
  - step H2 w i2 j2 K2.
Qed.
Lemma agree_cmp : forall cmp fuel w i1 i2 j1 j2, R1 i1 j1 -> R2 i2 j2 ->
  w_iter_compare wnext1 wnext2 (fun w ab => (w, Some (cmp (fst ab) (snd ab)))) is_eq (fun c => c) fuel w j1 j2
  = good w (iter_cmp next1 next2 cmp fuel i1 i2).
Proof using H1 H2.
  intros cmp. induction fuel as [|fuel IH]; intros w i1 i2 j1 j2 K1 K2; cbn [w_iter_compare iter_cmp]; [reflexivity|].
  step H1 w i1 j1 K1. destruct o as [a|].
  - step H2 w i2 j2 K2. destruct o as [b|]; [|reflexivity]. cbn [fst snd wcall].
    destruct (cmp a b) as [| |]; cbn [is_eq]; try reflexivity. now apply IH.
  - step H2 w i2 j2 K2.
Qed.
Lemma agree_eq : forall eqb fuel w i1 i2 j1 j2, R1 i1 j1 -> R2 i2 j2 ->
  w_iter_compare wnext1 wnext2 (fun w ab => (w, Some (eqb (fst ab) (snd ab)))) yes is_eq fuel w j1 j2
  = good w (iter_eq next1 next2 eqb fuel i1 i2).
Proof using H1 H2.
  intros eqb. induction fuel as [|fuel IH]; intros w i1 i2 j1 j2 K1 K2; cbn [w_iter_compare iter_eq]; [reflexivity|].
  step H1 w i1 j1 K1. destruct o as [a|].
  - step H2 w i2 j2 K2. destruct o as [b|]; [|reflexivity]. cbn [fst snd wcall].
    destruct (eqb a b); cbn [yes]; try reflexivity. now apply IH.
  - step H2 w i2 j2 K2. destruct o; reflexivity.
Qed.
Lemma agree_all : forall wp p, (forall w a, wp w a = good w (p a)) -> forall fuel w i1 j1, R1 i1 j1 ->
  w_iter_all wnext1 wp fuel w j1 = good w (iter_all next1 p fuel i1).
Proof using H1.
  intros wp p Hp. induction fuel as [|fuel IH]; intros w i1 j1 K1; cbn [w_iter_all iter_all]; [reflexivity|].
  step H1 w i1 j1 K1. destruct o as [a|]; [|reflexivity]. rewrite Hp. destruct (p a) as [[|]| |]; cbn; try reflexivity. now apply IH.
Qed.
End Adapters.

Lemma compare_ext : forall W S1 S2 A B R (n1 : w_next W S1 A) (n2 : w_next W S2 B) ask ask' (eq : R -> bool) ends,
  (forall w ab, ask w ab = ask' w ab) -> forall fuel w s1 s2,
  w_iter_compare n1 n2 ask eq ends fuel w s1 s2 = w_iter_compare n1 n2 ask' eq ends fuel w s1 s2.
Proof.
  intros W S1 S2 A B R n1 n2 ask ask' eq ends H. induction fuel as [|fuel IH]; intros w s1 s2; cbn [w_iter_compare]; [reflexivity|].
  destruct (n1 w s1) as [[w1 [[[a|] s1']|[]]]| |]; cbn [wbind bind]; try reflexivity.
  destruct (n2 w1 s2) as [[w2 [[[b|] s2']|[]]]| |]; cbn [wbind bind]; try reflexivity. rewrite H.
  destruct (ask' w2 (a, b)) as [w3 [r|]]; cbn [wcall]; [|reflexivity]. destruct (eq r); [apply IH|reflexivity].
Qed.

(** ** Sequences *)
Lemma steps_quiet : forall W St A (next : St -> res (option A * St)), steps_as (W:=W) next (quiet_next next) eq.
Proof. intros W St A next w i j ->. unfold quiet_next. destruct (next j) as [[o i']| |]; cbn; eauto. Qed.

Section Seq.
Context {W T : Type}.
Ltac both := first [eapply agree_eq|eapply agree_partial_cmp|eapply agree_cmp]; [apply steps_quiet|apply steps_quiet|reflexivity|reflexivity].
Lemma agree_l : forall (w : W) (l other : rlist T),
  (forall teq, w_l_eq (fun w ab => (w, Some (teq (fst ab) (snd ab)))) w l other = good w (l_eq teq l other)) /\
  (forall c, w_l_compare is_equal Some (fun w ab => (w, Some (c (fst ab) (snd ab)))) w l other = good w (l_partial_cmp c l other)) /\
  (forall c, w_l_compare is_eq (fun c => c) (fun w ab => (w, Some (c (fst ab) (snd ab)))) w l other = good w (l_cmp c l other)).
Proof.
  intros w l other. split; [|split; intros c; both]. intros teq. unfold w_l_eq, l_eq. destruct (Nat.eqb _ _); [both|reflexivity].
Qed.
Lemma agree_q : forall (w : W) (l other : rqueue T),
  (forall teq, w_q_eq (fun w ab => (w, Some (teq (fst ab) (snd ab)))) w l other = good w (q_eq teq l other)) /\
  (forall c, w_q_compare is_equal Some (fun w ab => (w, Some (c (fst ab) (snd ab)))) w l other = good w (q_partial_cmp c l other)) /\
  (forall c, w_q_compare is_eq (fun c => c) (fun w ab => (w, Some (c (fst ab) (snd ab)))) w l other = good w (q_cmp c l other)).
Proof.
  intros w l other. split; [|split; intros c; both]. intros teq. unfold w_q_eq, q_eq. destruct (Nat.eqb _ _); [both|reflexivity].
Qed.
Lemma agree_v : forall T' ubits dbg (w : W) (v : rvec T) (other : rvec T'),
  (forall teq, w_v_eq ubits dbg (fun w ab => (w, Some (teq (fst ab) (snd ab)))) w v other = good w (v_eq ubits dbg teq v other)) /\
  (forall c, w_v_compare ubits dbg is_equal Some (fun w ab => (w, Some (c (fst ab) (snd ab)))) w v other
     = good w (v_partial_cmp ubits dbg c v other)).
Proof.
  intros T' ubits dbg w v other. split; [|intros c; both]. intros teq. unfold w_v_eq, v_eq. destruct (N.eqb _ _); [both|reflexivity].
Qed.
Lemma agree_v_cmp : forall ubits dbg (w : W) (v other : rvec T) c,
  w_v_compare ubits dbg is_eq (fun c => c) (fun w ab => (w, Some (c (fst ab) (snd ab)))) w v other = good w (v_cmp ubits dbg c v other).
Proof. intros ubits dbg w v other c. both. Qed.
End Seq.

(** ** RedBlackTreeMap and RedBlackTreeSet *)
Section RB.
Context {W K V : Type}.
Variable kcmp : K -> K -> comparison.
Notation Up := (@pure_ord W K V K kcmp (fun k => k) kcmp).
(** [>] as [Ord] has it by default *)
Definition pure_gt (w : W) (a b : K) : W * option bool := (w, Some match kcmp a b with Gt => true | _ => false end).

Definition stripped (i : rbiter K V) (j : witer K V * nat) : Prop :=
  ri_start (it_range i) = Unbounded /\ ri_end (it_range i) = Unbounded /\ j = (strip (it_range i), it_size i).
Lemma ri_next_bounds : forall (i : riter K V K) o i', ri_next kcmp (fun k => k) kcmp i = Ok (o, i') ->
  ri_start i' = ri_start i /\ ri_end i' = ri_end i.
Proof.
  intros i o i' E.
  assert (H : ri_start (ri_init (fun k => k) kcmp false i) = ri_start i /\ ri_end (ri_init (fun k => k) kcmp false i) = ri_end i).
  { unfold ri_init. destruct (ri_fwd i); auto. }
  unfold ri_next in E. set (j := ri_init _ _ _ i) in *. clearbody j.
  unfold ri_current_forward, ri_advance_forward in E.
  destruct (ri_is_empty kcmp j), (ri_fwd j); cbn [unwrap bind] in E; try discriminate; injection E as <- <-; exact H.
Qed.
Lemma steps_rb : steps_as (it_next kcmp) (rb_next pure_gt) stripped.
Proof.
  intros w i j (Hs & He & ->). unfold it_next, rb_next, wt_step. cbn [snd fst]. destruct (Nat.ltb 0 (it_size i)).
  2:{ exists (strip (it_range i), it_size i). repeat split; assumption. }
  destruct (csub (it_size i) 1) as [size| |]; cbn [bind]; try reflexivity.
  pose proof (agree_iter (W:=W) kcmp (fun k => k) kcmp Unbounded Unbounded w false (it_range i) Hs He) as X.
  change (pure_range kcmp (fun k => k) kcmp Unbounded Unbounded) with (full_range pure_gt) in X.
  destruct (ri_next kcmp (fun k : K => k) kcmp (it_range i)) as [[o r]| |] eqn:E; rewrite X; cbn; try reflexivity.
  exists (strip r, size). split; [reflexivity|]. destruct (ri_next_bounds _ _ _ E) as [X1 X2]. repeat split; cbn [it_range]; congruence.
Qed.
Lemma stripped_new : forall m, stripped (it_new m) (wt_new m).
Proof. intros m. repeat split. Qed.

Lemma agree_rb_eq : forall veq w same (m other : rbmap K V),
  w_rb_eq Up pure_gt (fun w a b => (w, Some (veq a b))) w same m other = good w (rb_eq kcmp veq same m other).
Proof.
  intros veq w same m other. unfold w_rb_eq, rb_eq. destruct same; [reflexivity|]. destruct (negb _); [reflexivity|].
  eapply agree_all; [exact steps_rb| |apply stripped_new]. intros w0 [k v]. rewrite agree_get. unfold good, rmap, rb_get.
  cbn [wbind bind fst snd]. destruct (t_get _ _ _ _) as [[k' v']|]; reflexivity.
Qed.
Lemma agree_rb_partial_cmp : forall vcmp w (m other : rbmap K V),
  w_rb_compare pure_gt (pair_ask is_equal (fun w a b => (w, Some (Some (kcmp a b)))) (fun w a b => (w, Some (vcmp a b)))) is_equal Some w m other
  = good w (rb_partial_cmp kcmp vcmp m other).
Proof.
  intros vcmp w m other. unfold w_rb_compare, rb_partial_cmp.
  erewrite compare_ext; [eapply agree_partial_cmp; [exact steps_rb|exact steps_rb|apply stripped_new|apply stripped_new]|].
  intros w0 [[k v] [k' v']]. cbn [pair_ask fst snd]. now destruct (kcmp k k').
Qed.
Lemma agree_rb_cmp : forall vcmp w (m other : rbmap K V),
  w_rb_compare pure_gt (pair_ask is_eq (fun w a b => (w, Some (kcmp a b))) (fun w a b => (w, Some (vcmp a b)))) is_eq (fun c => c) w m other
  = good w (rb_cmp kcmp vcmp m other).
Proof.
  intros vcmp w m other. unfold w_rb_compare, rb_cmp.
  erewrite compare_ext; [eapply agree_cmp; [exact steps_rb|exact steps_rb|apply stripped_new|apply stripped_new]|].
  intros w0 [[k v] [k' v']]. cbn [pair_ask fst snd]. unfold pair_cmp. cbn [fst snd]. now destruct (kcmp k k').
Qed.
End RB.

Section RS.
Context {W T : Type}.
Variable tcmp : T -> T -> comparison.
Notation Up := (@pure_ord W T unit T tcmp (fun k => k) tcmp).
Notation gt := (pure_gt tcmp).

Lemma steps_rs : steps_as (W:=W) (si_next tcmp) (rs_next gt) stripped.
Proof.
  intros w i j H. pose proof (steps_rb tcmp w i j H) as X. unfold si_next, rs_next. destruct (it_next tcmp i) as [[o i']| |].
  - destruct X as (j' & -> & X). cbn. eauto.
  - rewrite X. reflexivity.
  - rewrite X. reflexivity.
Qed.
Ltac step w i j Hij :=
  let X := fresh in pose proof (steps_rs w i j Hij) as X;
  match type of X with match ?r with _ => _ end => destruct r as [[? ?]| |] end;
  [destruct X as (? & -> & ?)|rewrite X|rewrite X]; cbn [wbind bind]; try reflexivity.

Lemma agree_rs_eq : forall (w : W) same (s other : rset T), w_rs_eq Up gt w same s other = good w (rs_eq tcmp same s other).
Proof. intros. apply (agree_rb_eq tcmp (fun _ _ => true)). Qed.
Lemma agree_rs_partial_cmp : forall (w : W) (s other : rset T),
  w_rs_compare gt (fun w ab => (w, Some (Some (tcmp (fst ab) (snd ab))))) is_equal Some w s other = good w (rs_partial_cmp tcmp s other).
Proof.
  intros. unfold w_rs_compare, rs_partial_cmp.
  refine (agree_partial_cmp (si_next tcmp) (si_next tcmp) _ _ stripped stripped steps_rs steps_rs (fun a b => Some (tcmp a b)) _ _ _ _ _ _ _ _); apply stripped_new.
Qed.
Lemma agree_rs_cmp : forall (w : W) (s other : rset T),
  w_rs_compare gt (fun w ab => (w, Some (tcmp (fst ab) (snd ab)))) is_eq (fun c => c) w s other = good w (rs_cmp tcmp s other).
Proof.
  intros. unfold w_rs_compare, rs_cmp. eapply agree_cmp; [exact steps_rs|exact steps_rs|apply stripped_new|apply stripped_new].
Qed.
Lemma agree_disjoint_loop : forall fuel w v u i1 i2 j1 j2, stripped i1 j1 -> stripped i2 j2 ->
  w_disjoint_loop Up gt fuel w v u j1 j2 = good w (disjoint_loop tcmp fuel v u i1 i2).
Proof.
  induction fuel as [|fuel IH]; intros w v u i1 i2 j1 j2 K1 K2; cbn [w_disjoint_loop disjoint_loop]; [reflexivity|].
  destruct v as [v|]; [|reflexivity]. destruct u as [u|]; [|reflexivity]. cbn [pure_ord oc_key wcall].
  destruct (tcmp v u); [reflexivity| |]; [step w i1 j1 K1|step w i2 j2 K2]; now apply IH.
Qed.
Lemma agree_rs_is_disjoint : forall (w : W) (s other : rset T), w_rs_is_disjoint Up gt w s other = good w (rs_is_disjoint tcmp s other).
Proof.
  intros w s other. unfold w_rs_is_disjoint, rs_is_disjoint. cbv zeta.
  step w (it_new s) (wt_new s) (stripped_new s). step w (it_new other) (wt_new other) (stripped_new other). now apply agree_disjoint_loop.
Qed.
Lemma agree_seek : forall fuel w v i j, stripped i j ->
  match subset_seek tcmp fuel v i with
  | Ok (Some i') => exists j', w_subset_seek Up gt fuel w v j = Ok (w, Gave (Some j')) /\ stripped i' j'
  | Ok None => w_subset_seek Up gt fuel w v j = Ok (w, Gave None)
  | Panic => w_subset_seek Up gt fuel w v j = Panic
  | Diverge => w_subset_seek Up gt fuel w v j = Diverge
  end.
Proof.
  induction fuel as [|fuel IH]; intros w v i j K1; cbn [w_subset_seek subset_seek]; [reflexivity|].
  step w i j K1. destruct o as [u|]; [|reflexivity]. cbn [pure_ord oc_key wcall]. destruct (tcmp u v); [eauto|now apply IH|reflexivity].
Qed.
Lemma agree_subset_loop : forall fuel fuel' w i1 i2 j1 j2, stripped i1 j1 -> stripped i2 j2 ->
  w_subset_loop Up gt fuel fuel' w j1 j2 = good w (subset_loop tcmp fuel fuel' i1 i2).
Proof.
  induction fuel as [|fuel IH]; intros fuel' w i1 i2 j1 j2 K1 K2; cbn [w_subset_loop subset_loop]; [reflexivity|].
  step w i1 j1 K1. destruct o as [v|]; [|reflexivity]. pose proof (agree_seek fuel' w v i2 j2 K2) as X.
  destruct (subset_seek tcmp fuel' v i2) as [[i'|]| |]; [destruct X as (j' & -> & X)|rewrite X|rewrite X|rewrite X]; cbn [wbind bind];
    try reflexivity. now apply IH.
Qed.
Lemma agree_rs_is_subset : forall (w : W) same (s other : rset T),
  w_rs_is_subset Up gt w same s other = good w (rs_is_subset tcmp same s other).
Proof.
  intros w same s other. unfold w_rs_is_subset, rs_is_subset, rs_size. destruct same; [reflexivity|]. destruct (Nat.ltb _ _); [reflexivity|].
  apply agree_subset_loop; apply stripped_new.
Qed.
End RS.

(** ** HashTrieMap and HashTrieSet.  The other model collects the entries first. *)
Section Hash.
Variable ubits : N.
Variable dbg : bool.
Variable fuel : nat.

Lemma agree_all_m : forall W St A (next : St -> res (option A * St)) I wp (p : A -> res bool),
  iter_sim0 next I -> (forall (w : W) a, wp w a = good w (p a)) -> forall l n w s, I s l -> length l < n ->
  w_iter_all (quiet_next next) wp n w s = good w (all_m p l).
Proof.
  intros W St A next I wp p Hn Hp. induction l as [|a l IH]; intros n w s Hs Hl; (destruct n as [|n]; [lia|]); cbn [w_iter_all all_m];
    unfold quiet_next at 1; destruct (Hn s _ Hs) as (s' & -> & Hs'); cbn [bind wbind hd_error tl] in *; [reflexivity|].
  rewrite Hp. destruct (p a) as [[|]| |]; cbn; try reflexivity. apply IH; [assumption|cbn in Hl; lia].
Qed.
Lemma all_m_ext : forall A (p q : A -> res bool) l, (forall a, p a = q a) -> all_m p l = all_m q l.
Proof. intros A p q l H. induction l as [|a l IH]; cbn [all_m]; [reflexivity|]. rewrite H. destruct (q a) as [[|]| |]; cbn; auto. Qed.
Lemma all_m_map : forall A B (f : A -> B) (p : B -> res bool) l, all_m p (map f l) = all_m (fun a => p (f a)) l.
Proof. intros A B f p l. induction l as [|a l IH]; cbn [all_m map]; [reflexivity|]. destruct (p (f a)) as [[|]| |]; cbn; auto. Qed.

Variable b : N.
Hypothesis Hb : (0 < b)%N.
Hypothesis Hdeg : (2 ^ b <= ubits)%N.
Hypothesis Hub : (ubits <= 64)%N.

Lemma agree_hm_eq : forall W K V keq hash veq (w : W) same (m other : hmap K V) es, holds ubits b m es ->
  w_hm_eq ubits dbg (pure_hash keq (fun k => k) keq hash hash) fuel (fun w a b => (w, Some (veq a b))) w same m other
  = good w (hm_eq ubits dbg keq fuel veq hash same m other).
Proof using Hb Hdeg Hub.
  intros W K V keq hash veq w same m other es H. unfold w_hm_eq, hm_eq. destruct same; [reflexivity|]. destruct (negb _); [reflexivity|].
  rewrite (proj1 (holds_iter ubits dbg b Hb Hdeg Hub m es H)). cbn [bind].
  eapply agree_all_m; [apply iterates_sim0| |exact (holds_iterates ubits b K V dbg m es Hb Hdeg Hub H)|].
  - intros w0 [k v]. cbn [fst snd]. unfold w_hm_find, hm_get, hm_find. cbn [pure_hash hc_query_hash wcall]. rewrite agree_hn_get.
    unfold good, rmap. destruct (hn_get _ _ _ _ _ _ _ _ _ _) as [[e|]| |]; reflexivity.
  - rewrite map_length. unfold hm_len. destruct H as (_ & -> & _). lia.
Qed.
Lemma agree_hs_is_disjoint : forall W T teq hash (w : W) (s other : hset T) es, holds ubits b s es ->
  w_hs_is_disjoint ubits dbg (pure_hash teq (fun k => k) teq hash hash) fuel w s other
  = good w (hs_is_disjoint ubits dbg teq fuel hash s other).
Proof using Hb Hdeg Hub.
  intros W T teq hash w s other es H. unfold w_hs_is_disjoint, hs_is_disjoint, hs_elems, hm_keys.
  rewrite (proj1 (holds_iter ubits dbg b Hb Hdeg Hub s es H)). cbn [bind]. rewrite all_m_map.
  eapply agree_all_m; [apply iterates_sim0| |exact (holds_iterates ubits b T unit dbg s es Hb Hdeg Hub H)|].
  - intros w0 [k v]. cbn [fst snd]. unfold w_hm_find, hs_contains, hm_contains_key, hm_get, hm_find. cbn [pure_hash hc_query_hash wcall]. rewrite agree_hn_get.
    unfold good, rmap. destruct (hn_get _ _ _ _ _ _ _ _ _ _) as [[e|]| |]; reflexivity.
  - rewrite map_length. unfold hm_len. destruct H as (_ & -> & _). lia.
Qed.
Lemma agree_hs_is_subset : forall W T teq hash (w : W) same (s other : hset T) es, holds ubits b s es ->
  w_hs_is_subset ubits dbg (pure_hash teq (fun k => k) teq hash hash) fuel w same s other
  = good w (hs_is_subset ubits dbg teq fuel hash same s other).
Proof using Hb Hdeg Hub.
  intros W T teq hash w same s other es H. unfold w_hs_is_subset, hs_is_subset, hs_elems, hm_keys, hs_size. destruct same; [reflexivity|].
  destruct (negb _); [reflexivity|].
  rewrite (proj1 (holds_iter ubits dbg b Hb Hdeg Hub s es H)). cbn [bind]. rewrite all_m_map.
  eapply agree_all_m; [apply iterates_sim0| |exact (holds_iterates ubits b T unit dbg s es Hb Hdeg Hub H)|].
  - intros w0 [k v]. cbn [fst snd]. unfold w_hm_find, hs_contains, hm_contains_key, hm_get, hm_find. cbn [pure_hash hc_query_hash wcall]. rewrite agree_hn_get.
    unfold good, rmap. destruct (hn_get _ _ _ _ _ _ _ _ _ _) as [[e|]| |]; reflexivity.
  - rewrite map_length. unfold hm_len. destruct H as (_ & -> & _). lia.
Qed.
End Hash.
