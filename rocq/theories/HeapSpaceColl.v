(** * What the cells of each collection weigh

    The facts HeapSpace.v asks for: how often the user's values are in the cells of a version,
    and how many cells a version has. *)
From Coq Require Import List NArith Arith Lia Bool Permutation.
From Verif Require Import Base Spec Sim SpecMap SpecOrd ListModel ListProofs SparseModel SparseProofs HashModel HashProofs HashHist
  HashExtraProofs RBModel RBProofs RBHist VectorModel VectorProofs VectorOps PermSolve
  HeapModel HeapProofs HeapSafe HeapClient HeapWorld HeapList HeapListProofs HeapSeqProofs HeapVec HeapVecProofs
  HeapRB HeapRBProofs HeapRBMap HeapHash HeapHashProofs HeapHashMap HeapSet HeapSpace.
Import ListNotations.
Local Open Scope nat_scope.

Definition if1 (b : bool) : nat := if b then 1 else 0.

Lemma how_many_cons : forall {A} (p : A -> bool) x l, how_many p (x :: l) = if1 (p x) + how_many p l.
Proof. intros A p x l. unfold how_many, if1. cbn [filter]. destruct (p x); reflexivity. Qed.
Lemma how_many_app : forall {A} (p : A -> bool) l m, how_many p (l ++ m) = how_many p l + how_many p m.
Proof. intros A p l m. unfold how_many. now rewrite filter_app, app_length. Qed.
Lemma how_many_perm : forall {A} (p : A -> bool) l m, Permutation l m -> how_many p l = how_many p m.
Proof.
  intros A p l m H. induction H; trivial; rewrite ?how_many_cons in *; lia.
Qed.
Lemma how_many_map : forall {A B} (f : A -> B) p l, how_many p (map f l) = how_many (fun x => p (f x)) l.
Proof. intros A B f p l. induction l as [|x l IH]; [trivial|]. cbn [map]. now rewrite !how_many_cons, IH. Qed.
Lemma how_many_le : forall {A} (p : A -> bool) l, how_many p l <= length l.
Proof. intros A p l. induction l; [cbn; lia|]. rewrite how_many_cons. unfold if1. cbn [length]. destruct (p a); lia. Qed.
Lemma how_many_all : forall {A} (l : list A), how_many (fun _ => true) l = length l.
Proof. intros A l. induction l; [trivial|]. rewrite how_many_cons. cbn. lia. Qed.

Lemma sum_cons : forall x l, list_sum (x :: l) = x + list_sum l.
Proof. reflexivity. Qed.

Lemma sum_how_many : forall {A} (p : A -> bool) l, list_sum (map (fun x => if1 (p x)) l) = how_many p l.
Proof. intros A p l. induction l; [trivial|]. cbn [map]. now rewrite sum_cons, how_many_cons, IHl. Qed.
Lemma sum_const : forall {A} n (l : list A), list_sum (map (fun _ => n) l) = n * length l.
Proof. intros A n l. induction l; [cbn; lia|]. cbn [map length]. rewrite sum_cons, IHl. lia. Qed.
Lemma sum_plus : forall {A} (f g : A -> nat) l, list_sum (map (fun x => f x + g x) l) = list_sum (map f l) + list_sum (map g l).
Proof. intros A f g l. induction l; [trivial|]. cbn [map]. rewrite !sum_cons, IHl. lia. Qed.
Lemma sum_perm : forall l m, Permutation l m -> list_sum l = list_sum m.
Proof. intros l m H. induction H; rewrite ?sum_cons in *; lia. Qed.

(** ** List, Stack, Queue *)
Section ListCells.
Context {C T E : Type} (mkN : addr -> option addr -> C) (mkE : E -> C) (erep : E -> T -> list (@ptree C) -> Prop).
Context (w : C -> nat) (wn : nat) (we : T -> nat).
Hypothesis wN : forall v nx, w (mkN v nx) = wn.
Hypothesis wE : forall x t, elemt mkE erep x t -> covers w [t] (we x).

Lemma ends_nodes : forall (ts : list (@ptree C)) t, ends ts t -> incl (pnodes t) (flat_map pnodes ts).
Proof.
  intros ts t H. induction H as [a c t|a c t u v H IH]; cbn [flat_map pnodes app]; rewrite ?app_nil_r.
  - apply incl_tl, incl_refl.
  - apply incl_tl, incl_appr. cbn [flat_map] in IH. now rewrite app_nil_r in IH.
Qed.

Lemma chain_covers : forall s ts, chain mkN mkE erep s ts -> covers w ts (list_sum (map (fun x => wn + we x) s)).
Proof.
  intros s ts H. induction H as [|x s t ts a Et Ch IH]; [apply covers_nil|]. cbn [map]. rewrite sum_cons.
  rewrite <- Nat.add_assoc.
  rewrite <- (wN (pa t) (hd_error (map pa ts))) at 1. apply covers_node.
  apply (covers_app w [t]); [exact (wE _ _ Et)|exact IH].
Qed.

Lemma lrep_covers : forall L s lo G, lrep mkN mkE erep L s lo G -> gcovers w G (list_sum (map (fun x => wn + we x) s)).
Proof.
  intros L s lo G (ts & tl & -> & Ch & Lt & _). apply gcovers_trees, covers_more; [apply (chain_covers _ _ Ch)|].
  destruct Lt as [|x t Et En]; [intros x []|]. cbn [flat_map]. rewrite app_nil_r. now apply ends_nodes.
Qed.
End ListCells.

Section Seq.
Context {T : Type}.

(** 1 for a cell that holds a value with the property. *)
Definition l_value (p : T -> bool) (c : lcell T) : nat := match c with LE x => if1 (p x) | LN _ _ => 0 end.

Lemma list_values : forall p L (s : list T) G, hlrep L s G -> gcovers (l_value p) G (how_many p s).
Proof.
  intros p L s G R. rewrite <- sum_how_many. apply (lrep_covers LN LE perep (l_value p) 0 (fun x => if1 (p x))) with (3 := R); [trivial|].
  intros x t [a e ts (-> & ->)]. eapply covers_le; [apply (covers_node (l_value p) a (LE x) [] 0), covers_nil|cbn; lia].
Qed.
Lemma list_cells : forall L (s : list T) G, hlrep L s G -> gcovers (fun _ => 1) G (2 * length s).
Proof.
  intros L s G R. rewrite <- sum_const. apply (lrep_covers LN LE perep (fun _ => 1) 1 (fun _ => 1)) with (3 := R); [trivial|].
  intros x t [a e ts (-> & ->)]. apply (covers_node (fun _ => 1) a (LE x) [] 0), covers_nil.
Qed.
Lemma queue_values : forall p q (s : list T) G, hqrep q s G -> gcovers (l_value p) G (how_many p s).
Proof.
  intros p q s G (i & o & Gi & Go & Ri & Ro & -> & ->). rewrite how_many_app, Nat.add_comm.
  rewrite (how_many_perm p (rev i) i) by (symmetry; apply Permutation_rev).
  apply gcovers_app; eapply list_values; eassumption.
Qed.
Lemma queue_cells : forall q (s : list T) G, hqrep q s G -> gcovers (fun _ => 1) G (2 * length s).
Proof.
  intros q s G (i & o & Gi & Go & Ri & Ro & -> & ->). rewrite app_length, rev_length, Nat.add_comm, Nat.mul_add_distr_l.
  apply gcovers_app; eapply list_cells; eassumption.
Qed.
End Seq.

(** ** Vector *)
Section Vec.
Context {T : Type}.
Variables (ubits : N) (dbg : bool) (bits : N).
Hypothesis (Hu : (8 <= ubits)%N) (Hb : (0 < bits)%N) (Hbu : (bits < ubits)%N).

Definition v_value (p : T -> bool) (c : vcell T) : nat := match c with VE x => if1 (p x) | VB _ | VL _ => 0 end.

Fixpoint vnodes (n : vnode T) : nat := match n with VLeaf _ => 1 | VBranch ns => 1 + list_sum (map vnodes ns) end.

Section W.
Context (w : vcell T -> nat) (wn : nat) (we : T -> nat).
Hypothesis wB : forall l, w (VB l) = wn.
Hypothesis wL : forall l, w (VL l) = wn.
Hypothesis wE : forall x, w (VE x) = we x.

Lemma rep_covers : forall h n l t, rep bits h n l -> vtree n t -> covers w [t] (wn * vnodes n + list_sum (map we l)).
Proof.
  induction h as [|h IH]; intros n l t R V; cbn [rep] in R.
  - destruct R as (-> & _). inversion V as [? a c ts Vc]; subst. inversion Vc as [|? ? F]; subst. cbn [vnodes].
    rewrite Nat.mul_1_r, <- (wL (map pa ts)). apply covers_node. clear - F wE.
    induction F as [|x t l ts Ve F IH]; [apply covers_nil|]. cbn [map]. rewrite sum_cons.
    apply (covers_app w [t]); [|exact IH]. destruct Ve. rewrite <- wE, <- (Nat.add_0_r (w _)). apply covers_node, covers_nil.
  - destruct R as (cs & -> & Cr & _). inversion V as [? a c ts Vc]; subst. inversion Vc as [? ? F|]; subst. cbn [vnodes].
    rewrite Nat.mul_add_distr_l, Nat.mul_1_r, <- Nat.add_assoc. rewrite <- (wB (map pa ts)) at 1. apply covers_node.
    clear V Vc. revert ts F. induction Cr as [n l Rn _|n l ns ls Rn _ Cr IHc]; intros ts F.
    + inversion F as [|? t ? ? Vt F']; subst. inversion F'; subst. cbn [map]. rewrite sum_cons. cbn [list_sum fold_right map].
      rewrite Nat.add_0_r. now apply IH.
    + inversion F as [|? t ? ts' Vt F']; subst. cbn [map]. rewrite sum_cons, map_app, list_sum_app.
      eapply covers_le; [apply (covers_app w [t]); [apply (IH _ _ _ Rn Vt)|apply (IHc _ F')]|]. lia.
Qed.
End W.

(** How many nodes: no more than one for each [2^bits - 1] elements, and one for each level. *)
Definition fan : nat := N.to_nat (2 ^ bits) - 1.
Lemma fan_pos : 0 < fan.
Proof. unfold fan. pose proof (N.pow_gt_1 2 bits ltac:(lia) ltac:(lia)). lia. Qed.

Lemma nodes_full : forall h n (l : list T), rep bits h n l -> len l = dp bits (N.of_nat h + 1) -> fan * vnodes n + 1 <= length l.
Proof.
  induction h as [|h IH]; intros n l R L; cbn [rep] in R.
  - destruct R as (-> & _). cbn [vnodes]. unfold len, dp in L. rewrite N.mul_1_r in L. unfold fan.
    pose proof (N.pow_gt_1 2 bits ltac:(lia) ltac:(lia)). lia.
  - destruct R as (cs & -> & Cr & _). cbn [vnodes].
    replace (N.of_nat (S h)) with (N.of_nat h + 1)%N in * by lia. set (D := dp bits (N.of_nat h + 1)) in *.
    assert (Dp : (0 < D)%N) by (apply (dp_pos ubits dbg bits Hu Hb Hbu)).
    assert (Z : forall cs l, crep (rep bits h) D cs l -> (len l <= N.of_nat (length cs) * D)%N /\
              (len l = (N.of_nat (length cs) * D)%N -> fan * list_sum (map vnodes cs) + length cs <= length l)).
    { clear - IH Dp. intros cs l H. induction H as [n l Rn Ln|n l ns ls Rn Ln Cr IHc]; cbn [length map]; rewrite sum_cons.
      - split; [lia|]. intros E. specialize (IH _ _ Rn ltac:(lia)). cbn. lia.
      - destruct IHc as (A & B). rewrite len_app. split; [lia|]. intros E. specialize (B ltac:(lia)). specialize (IH _ _ Rn ltac:(lia)).
        rewrite app_length. lia. }
    destruct (Z _ _ Cr) as (A & B). rewrite (dp_S ubits dbg bits Hu Hb Hbu) in L. fold D in L.
    destruct (crep_len_bounds ubits dbg bits Hu Hb Hbu _ _ _ _ Dp Cr) as (Q1 & Q2). change (dp bits 1) with (2 ^ (bits * 1))%N in L. rewrite N.mul_1_r in L.
    assert (Q : N.of_nat (length cs) = (2 ^ bits)%N) by (unfold len in *; nia).
    rewrite Q in B. specialize (B ltac:(lia)). unfold fan in *. lia.
Qed.

Lemma nodes_any : forall h n (l : list T), rep bits h n l -> fan * vnodes n <= length l + fan * S h.
Proof.
  induction h as [|h IH]; intros n l R; cbn [rep] in R.
  - destruct R as (-> & _). cbn [vnodes]. lia.
  - destruct R as (cs & -> & Cr & _). cbn [vnodes].
    assert (Z : fan * list_sum (map vnodes cs) <= length l + fan * S h); [|lia].
    induction Cr as [n l Rn Ln|n l ns ls Rn Ln Cr IHc]; cbn [map]; rewrite sum_cons.
    + specialize (IH _ _ Rn). cbn. lia.
    + rewrite app_length. replace (N.of_nat (S h)) with (N.of_nat h + 1)%N in Ln by lia.
      pose proof (nodes_full _ _ _ Rn Ln). lia.
Qed.

Lemma vec_values : forall p v (l : list T) G, hvrep ubits dbg bits v l G -> gcovers (v_value p) G (how_many p l).
Proof.
  intros p v l G (w & (_ & _ & h & _ & R) & _ & t & _ & V & ->). rewrite <- sum_how_many.
  apply (gcovers_trees _ [t]).
  apply (rep_covers (v_value p) 0 (fun x => if1 (p x)) (fun _ => eq_refl) (fun _ => eq_refl) (fun _ => eq_refl) _ _ _ _ R V).
Qed.

(** At most this many cells. *)
Definition vec_cells_max (n : nat) : nat := n + n / fan + levels bits (N.of_nat n).
Lemma vec_cells : forall v (l : list T) G, hvrep ubits dbg bits v l G -> gcovers (fun _ => 1) G (vec_cells_max (length l)).
Proof.
  intros v l G (w & (_ & _ & h & Hs & R) & _ & t & _ & V & ->). apply (gcovers_trees _ [t]).
  eapply covers_le; [apply (rep_covers (fun _ => 1) 1 (fun _ => 1) (fun _ => eq_refl) (fun _ => eq_refl) (fun _ => eq_refl) _ _ _ _ R V)|].
  rewrite sum_const. unfold vec_cells_max. pose proof (nodes_any _ _ _ R) as A. fold (len l).
  rewrite <- (height_levels ubits bits Hu Hb Hbu (len l) _ Hs), Nat2N.id. pose proof fan_pos as Fp.
  assert (vnodes (v_root w) - S h <= length l / fan) by (apply Nat.div_le_lower_bound; lia). lia.
Qed.
End Vec.

(** ** RedBlackTreeMap *)
Section RB.
Context {K V : Type} (kcmp : K -> K -> comparison).
Definition r_entry (p : K * V -> bool) (c : rcell K V) : nat := match c with RE e => if1 (p e) | RN _ => 0 end.

Section W.
Context (w : rcell K V -> nat) (wn : nat) (we : K * V -> nat).
Hypothesis wN : forall n, w (RN n) = wn.
Hypothesis wE : forall e, w (RE e) = we e.
Lemma topt_covers : forall t o ts, topt (K := K) (V := V) t o ts -> covers w ts (list_sum (map (fun e => wn + we e) (elems t))).
Proof.
  intros t o ts H. induction H as [|a e c l r te ol tl or tr Ee Hl IHl Hr IHr]; [apply covers_nil|].
  cbn [elems]. rewrite map_app, list_sum_app. cbn [map]. rewrite sum_cons.
  eapply covers_le; [apply covers_node, (covers_app w [te] _ (we e)), covers_app; [|exact IHl|exact IHr]|rewrite wN; lia].
  destruct Ee. rewrite <- wE, <- (Nat.add_0_r (w _)). apply covers_node, covers_nil.
Qed.
End W.

Lemma rb_values : forall p m (fm : fmap K V) G, hbrep kcmp m fm G -> gcovers (r_entry p) G (how_many p fm).
Proof.
  intros p m fm G (w & (_ & P & _) & _ & ts & Ht & ->). rewrite <- (how_many_perm p _ _ P), <- sum_how_many.
  apply gcovers_trees, (topt_covers (r_entry p) 0 (fun e => if1 (p e)) (fun _ => eq_refl) (fun _ => eq_refl) _ _ _ Ht).
Qed.
Lemma rb_cells : forall m (fm : fmap K V) G, hbrep kcmp m fm G -> gcovers (fun _ => 1) G (2 * length fm).
Proof.
  intros m fm G (w & (_ & P & _) & _ & ts & Ht & ->). rewrite <- (Permutation_length P), <- sum_const.
  apply gcovers_trees, (topt_covers (fun _ => 1) 1 (fun _ => 1) (fun _ => eq_refl) (fun _ => eq_refl) _ _ _ Ht).
Qed.
End RB.

(** ** HashTrieMap *)
Section Hash.
Context {K V : Type} (ubits b : N) (keq : K -> K -> bool) (hash : K -> N).
Notation entry := (hentry K V).
Definition t_entry (p : K * V -> bool) (c : tcell K V) : nat := match c with TE e => if1 (p e) | _ => 0 end.

Section W.
Context (w : tcell K V -> nat) (wb wc wn wl k : nat) (we : K * V -> nat).
Hypothesis wB : forall s, w (TB s) = wb.
Hypothesis wS : forall e, w (TS e) <= k.
Hypothesis wC : forall l, w (TC l) = wc.
Hypothesis wN : forall v nx, w (TLN v nx) = wn.
Hypothesis wL : forall e, w (TLE e) = wl.
Hypothesis wE : forall e, w (TE e) = we e.
Hypothesis wk : wc + wn + wl <= k.
Notation price := (fun x : entry => k + we (kv x)).

Lemma et_covers : forall e (x : entry), covers w [et e x] (we (kv x)).
Proof. intros e x. rewrite <- wE, <- (Nat.add_0_r (w _)). apply covers_node, covers_nil. Qed.

(** The number of branches, the root aside, is at most half that of the levels of all entries. *)
Lemma hrep_covers : forall r d n (es : list entry) t, hrep ubits b r d n es -> ntree n t ->
  exists m, covers w [t] (wb * m + list_sum (map price es)) /\
    (if is_branch n then 2 * m <= r * length es + 2 /\ (2 <= length es -> 2 * m <= r * length es) else m = 0).
Proof.
  induction r as [|r IH]; intros d n es t R Nt; destruct Nt as [n a c ts Nc]; destruct Nc as [s s' ts E1 E2 F|e x Ex|L l s ts R1 R2].
  all: cbn [hrepg is_branch] in *.
  1: contradiction.
  4:{ exists 0. split; [|trivial]. subst es. cbn [map]. rewrite sum_cons.
      eapply covers_le; [apply covers_node, et_covers|pose proof (wS e); cbn; lia]. }
  1:{ exists 0. split; [|trivial]. subst es. cbn [map]. rewrite sum_cons.
      eapply covers_le; [apply covers_node, et_covers|pose proof (wS e); cbn; lia]. }
  3: destruct R as (_ & R & L2).
  1: destruct R as (_ & R & L2).
  1,3: exists 0; split; [|trivial]; assert (s = es) as -> by (destruct R as (R & _), R1 as (R' & _); congruence);
    destruct (trep_inv _ _ _ R2) as (us & tl & -> & Ch & Lt & _);
    eapply covers_le;
      [apply covers_node, covers_more;
        [apply (chain_covers TLN TLE terep w wn (fun x => wl + we (kv x)) wN) with (2 := Ch)|]|].
  1,4: intros x t [v e us' (-> & _)]; rewrite <- (wL e); apply covers_node, et_covers.
  1,3: (destruct Lt as [|x t Et En]; [intros x []|]; cbn [flat_map]; rewrite app_nil_r; now apply ends_nodes).
  1,2: rewrite wC, (map_ext _ (fun x => (wn + wl) + we (kv x))) by (intros; lia);
    rewrite !sum_plus, !sum_const; nia.
  (* a branch *)
  destruct R as (al & (_ & A & _) & Ch). rewrite A in F.
  assert (Z : exists m, covers w ts (wb * m + list_sum (map price es)) /\ 2 * m <= r * length es).
  { clear E1 E2 A. revert ts F. induction Ch as [|i c ec al rest Rc Ne _ B2 Ch IHc]; intros ts F; cbn [map] in F.
    - inversion F; subst. exists 0. split; [apply covers_nil|lia].
    - inversion F as [|? t ? ts' Nt F']; subst. destruct (IH _ _ _ _ Rc Nt) as (m1 & C1 & B1). destruct (IHc _ F') as (m2 & C2 & L2).
      exists (m1 + m2). rewrite map_app, list_sum_app, app_length. split.
      + eapply covers_le; [apply (covers_app w [t] ts'); [exact C1|exact C2]|lia].
      + destruct (is_branch c); [destruct B1 as (_ & B1); specialize (B1 (B2 eq_refl eq_refl)); nia|subst m1; nia]. }
  destruct Z as (m & Cm & Lm). exists (S m). split; [|split; nia].
  eapply covers_le; [apply covers_node; exact Cm|]. rewrite wB. lia.
Qed.
End W.

Lemma hash_values : forall p m (fm : fmap K V) G, hhrep ubits b keq hash m fm G -> gcovers (t_entry p) G (how_many p fm).
Proof.
  intros p m fm G (w & (es & R & _ & P & _) & _ & _ & t & Nt & _ & ->). apply (gcovers_trees _ [t]).
  destruct (hrep_covers (t_entry p) 0 0 0 0 0 (fun e => if1 (p e)) (fun _ => eq_refl) (fun _ => le_n 0) (fun _ => eq_refl) (fun _ _ => eq_refl)
              (fun _ => eq_refl) (fun _ => eq_refl) (le_n 0) _ _ _ _ _ R Nt) as (m' & Cv & _).
  eapply covers_le; [exact Cv|]. rewrite <- (how_many_perm p _ _ P), how_many_map, <- sum_how_many. cbn. lia.
Qed.

Definition hash_cells_max (n : nat) : nat := 4 * n + D b * n / 2 + 1.
Lemma hash_cells : forall m (fm : fmap K V) G, hhrep ubits b keq hash m fm G -> gcovers (fun _ => 1) G (hash_cells_max (length fm)).
Proof.
  intros m fm G (w & (es & R & _ & P & _) & _ & _ & t & Nt & _ & ->). apply (gcovers_trees _ [t]).
  destruct (hrep_covers (fun _ => 1) 1 1 1 1 3 (fun e => 1) (fun _ => eq_refl) (fun _ => le_S _ _ (le_S _ _ (le_n 1))) (fun _ => eq_refl) (fun _ _ => eq_refl)
              (fun _ => eq_refl) (fun _ => eq_refl) (le_n 3) _ _ _ _ _ R Nt) as (m' & Cv & Bm).
  eapply covers_le; [exact Cv|]. rewrite sum_const, <- (Permutation_length P), map_length. unfold hash_cells_max.
  assert (Z : m' - 1 <= D b * length es / 2); [|lia].
  apply Nat.div_le_lower_bound; [lia|]. destruct (is_branch (hm_root w)); lia.
Qed.
End Hash.

(** ** The sets *)
Lemma ss_values : forall {T} (tcmp : T -> T -> comparison) p m s G, ssrep tcmp m s G ->
  gcovers (r_entry (fun e => p (fst e))) G (how_many p s).
Proof.
  intros T tcmp p m s G R. eapply rb_values with (p := fun e => p (fst e)) in R. now rewrite how_many_map in R.
Qed.
Lemma ss_cells : forall {T} (tcmp : T -> T -> comparison) m s G, ssrep tcmp m s G -> gcovers (fun _ => 1) G (2 * length s).
Proof. intros T tcmp m s G R. apply rb_cells in R. now rewrite map_length in R. Qed.
Lemma us_values : forall {T} ubits b teq hash p m (s : list T) G, usrep ubits b teq hash m s G ->
  gcovers (t_entry (fun e => p (fst e))) G (how_many p s).
Proof.
  intros T ubits b teq hash p m s G R. eapply hash_values with (p := fun e => p (fst e)) in R. now rewrite how_many_map in R.
Qed.
Lemma us_cells : forall {T} ubits b teq hash m (s : list T) G, usrep ubits b teq hash m s G ->
  gcovers (fun _ => 1) G (hash_cells_max b (length s)).
Proof. intros T ubits b teq hash m s G R. apply hash_cells in R. now rewrite map_length in R. Qed.
