(** * Every value of a version is in a live cell (for C65)

    The converse of HeapSpaceColl.v: there, the cells of a version weigh no more than its values; here, each
    of its values is in one of its cells. *)
From Coq Require Import List NArith Arith Lia Bool Permutation.
From Verif Require Import Base Spec SpecMap SpecOrd ListModel SparseModel HashModel HashProofs HashHist
  RBModel RBProofs RBHist VectorModel VectorProofs HeapModel HeapProofs HeapSafe HeapSpace
  HeapList HeapListProofs HeapSeqProofs HeapVec HeapVecProofs HeapRB HeapRBProofs HeapRBMap HeapHash HeapHashProofs HeapHashMap HeapSet HeapSpaceColl.
Import ListNotations.
Local Open Scope nat_scope.

Section Holds.
Context {C X : Type} (kids : C -> list addr) (mk : X -> C).
Notation own := (@own C).

Definition holds (s : list X) (G : list own) : Prop := forall x, In x s -> exists a, In (a, mk x) (gnodes G).

Lemma node_live : forall h (t : @ptree C), phys kids h t -> forall a c, In (a, c) (pnodes t) -> In c (live h).
Proof using.
  intros h t. induction t as [b c ts IH] using (@ptree_rect2 C). intros Ph a d I. rewrite phys_eq in Ph. destruct Ph as ((n & E) & _ & F).
  cbn [pnodes] in I. destruct I as [I|I].
  - inversion I; subst. unfold live. apply in_flat_map. exists (Some (Full n d)). split; [|now left].
    unfold get in E. destruct (nth_error h a) as [[o|]|] eqn:N; [|discriminate..]. inversion E; subst. exact (nth_error_In _ _ N).
  - apply in_flat_map in I. destruct I as (t & It & Ia). rewrite Forall_forall in IH, F. exact (IH t It (F t It) a d Ia).
Qed.
Lemma holds_live : forall s G h, holds s G -> WF kids h G -> incl (map mk s) (live h).
Proof using.
  intros s G h H (_ & F & _) c I. apply in_map_iff in I as (x & <- & Ix). destruct (H x Ix) as (a & Ia). unfold gnodes in Ia.
  apply in_flat_map in Ia as (o & Io & Ia). rewrite Forall_forall in F. specialize (F o Io). destruct o as [t|b]; [|destruct Ia].
  exact (node_live h t F a _ Ia).
Qed.
(** Values that are all different weigh at most what the heap does, and so does each value. *)
Lemma holds_weigh : forall (w : C -> nat) (we : X -> nat) s G h,
  (forall x y, mk x = mk y -> x = y) -> (forall x, w (mk x) = we x) -> holds s G -> WF kids h G ->
  (NoDup s -> list_sum (map we s) <= weigh w h) /\ (forall x, In x s -> we x <= weigh w h).
Proof using.
  intros w we s G h Inj E H W. assert (A : forall s', NoDup s' -> incl s' s -> list_sum (map we s') <= weigh w h).
  { intros s' N I. rewrite (map_ext we (fun x => w (mk x))) by (intros; now rewrite E). rewrite <- map_map. unfold weigh. apply sum_incl.
    - clear - N Inj. induction N as [|x l Nx N IH]; constructor; [|exact IH]. intros I. apply in_map_iff in I as (y & Ey & Iy). now rewrite <- (Inj _ _ Ey) in Nx.
    - intros c I'. apply (holds_live s G h H W). apply in_map_iff in I' as (x & <- & Ix). apply in_map. now apply I. }
  split; [intros N; apply (A s N), incl_refl|]. intros x Ix. specialize (A [x]). cbn [map list_sum fold_right] in A.
  rewrite Nat.add_0_r in A. apply A; [repeat constructor; intros []|]. intros y [<-|[]]. exact Ix.
Qed.
Lemma holds_app : forall s s' G G', holds s G -> holds s' G' -> holds (s ++ s') (G ++ G').
Proof using.
  intros s s' G G' H H' x I. unfold gnodes. rewrite flat_map_app. apply in_app_or in I as [I|I].
  - destruct (H x I) as (a & Ia). exists a. apply in_or_app. now left.
  - destruct (H' x I) as (a & Ia). exists a. apply in_or_app. now right.
Qed.
Lemma holds_trees : forall s ts, (forall x, In x s -> exists a, In (a, mk x) (flat_map pnodes ts)) -> holds s (map Tree ts).
Proof using.
  intros s ts H x I. destruct (H x I) as (a & Ia). exists a. unfold gnodes. rewrite flat_map_concat_map, map_map. now rewrite flat_map_concat_map in Ia.
Qed.
Lemma holds_perm : forall s s' G, Permutation s s' -> holds s G -> holds s' G.
Proof using. intros s s' G P H x I. apply H. now rewrite P. Qed.
End Holds.

Section Chain.
Context {C T E : Type} (mkN : addr -> option addr -> C) (mkE : E -> C) (erep : E -> T -> list (@ptree C) -> Prop) (mk : T -> C).
Hypothesis mkE_ok : forall x t, elemt mkE erep x t -> exists a, In (a, mk x) (pnodes t).
Lemma chain_holds : forall s ts, chain mkN mkE erep s ts -> forall x, In x s -> exists a, In (a, mk x) (flat_map pnodes ts).
Proof using mkE_ok.
  intros s ts H. induction H as [|x s t ts a Et Ch IH]; intros y I; [destruct I|]. cbn [flat_map pnodes app]. rewrite app_nil_r.
  destruct I as [->|I].
  - destruct (mkE_ok y t Et) as (b & Ib). exists b. right. apply in_or_app. now left.
  - destruct (IH y I) as (b & Ib). exists b. right. apply in_or_app. now right.
Qed.
Lemma lrep_holds : forall L s lo G, lrep mkN mkE erep L s lo G -> holds mk s G.
Proof using mkE_ok.
  intros L s lo G (ts & tl & -> & Ch & Lt & _). apply holds_trees. intros x I. destruct (chain_holds s ts Ch x I) as (a & Ia). exists a.
  rewrite flat_map_app. apply in_or_app. now left.
Qed.
End Chain.

Lemma list_holds : forall T L (s : list T) G, hlrep L s G -> holds LE s G.
Proof.
  intros T L s G R. apply (lrep_holds LN LE perep LE) with (2 := R). intros x t [a e ts (-> & ->)]. exists a. now left.
Qed.
Lemma queue_holds : forall T q (s : list T) G, hqrep q s G -> holds LE s G.
Proof.
  intros T q s G (i & o & Gi & Go & Ri & Ro & -> & ->). apply (holds_perm _ (i ++ o)).
  - rewrite Permutation_app_comm. apply Permutation_app_head, Permutation_rev.
  - apply holds_app; eapply list_holds; eassumption.
Qed.

Lemma vrep_holds : forall T bits h n (l : list T) t, rep bits h n l -> vtree n t -> forall x, In x l -> exists a, In (a, VE x) (pnodes t).
Proof.
  intros T bits. induction h as [|h IH]; intros n l t R V x I; cbn [rep] in R.
  - destruct R as (-> & _). inversion V as [? a c ts Vc]; subst. inversion Vc as [|? ? F]; subst. cbn [pnodes].
    clear - F I. assert (Z : exists b, In (b, VE x) (flat_map pnodes ts)); [|destruct Z as (b & Z); exists b; now right].
    induction F as [|y t l ts Ve F IH]; [destruct I|]. cbn [flat_map]. destruct I as [->|I].
    + destruct Ve as [b]. exists b. now left.
    + destruct (IH I) as (b & Ib). exists b. apply in_or_app. now right.
  - destruct R as (cs & -> & Cr & _). inversion V as [? a c ts Vc]; subst. inversion Vc as [? ? F|]; subst. cbn [pnodes].
    assert (Z : exists b, In (b, VE x) (flat_map pnodes ts)); [|destruct Z as (b & Z); exists b; now right].
    clear V Vc. revert ts F. induction Cr as [n l Rn _|n l ns ls Rn _ Cr IHc]; intros ts F.
    + inversion F as [|? t ? ? Vt F']; subst. destruct (IH _ _ _ Rn Vt x I) as (b & Ib). exists b. cbn [flat_map]. apply in_or_app. now left.
    + inversion F as [|? t ? ts' Vt F']; subst. cbn [flat_map]. apply in_app_or in I as [I|I].
      * destruct (IH _ _ _ Rn Vt x I) as (b & Ib). exists b. apply in_or_app. now left.
      * destruct (IHc I _ F') as (b & Ib). exists b. apply in_or_app. now right.
Qed.
Lemma vec_holds : forall T ubits dbg bits v (l : list T) G, hvrep ubits dbg bits v l G -> holds VE l G.
Proof.
  intros T ubits dbg bits v l G (w & (_ & _ & h & _ & R) & _ & t & _ & V & ->). apply (holds_trees VE l [t]). intros x I.
  destruct (vrep_holds _ _ _ _ _ _ R V x I) as (a & Ia). exists a. cbn [flat_map]. apply in_or_app. now left.
Qed.

Lemma topt_holds : forall K V t o ts, topt (K := K) (V := V) t o ts -> forall e, In e (elems t) -> exists a, In (a, RE e) (flat_map pnodes ts).
Proof.
  intros K V t o ts H. induction H as [|a e c l r te ol tl or tr Ee Hl IHl Hr IHr]; intros x I; [destruct I|].
  cbn [flat_map pnodes]. rewrite app_nil_r. cbn [elems] in I.
  assert (Z : exists b, In (b, RE x) (flat_map pnodes (te :: tl ++ tr))); [|destruct Z as (b & Z); exists b; now right].
  cbn [flat_map]. rewrite flat_map_app. apply in_app_or in I as [I|[->|I]].
  - destruct (IHl x I) as (b & Ib). exists b. apply in_or_app. right. apply in_or_app. now left.
  - destruct Ee as [b e]. exists b. now left.
  - destruct (IHr x I) as (b & Ib). exists b. apply in_or_app. right. apply in_or_app. now right.
Qed.
Lemma rb_holds : forall K V (kcmp : K -> K -> comparison) m (fm : fmap K V) G, hbrep kcmp m fm G -> holds RE fm G.
Proof.
  intros K V kcmp m fm G (w & (_ & P & _) & _ & ts & Ht & ->). apply (holds_perm _ _ _ _ P), holds_trees. exact (topt_holds _ _ _ _ _ Ht).
Qed.

Lemma ntree_holds : forall K V ubits b r d n (es : list (hentry K V)) t, hrep ubits b r d n es -> ntree n t ->
  forall x, In x es -> exists a, In (a, TE (kv x)) (pnodes t).
Proof.
  intros K V ubits b. induction r as [|r IH]; intros d n es t R Nt x I; destruct Nt as [n a c ts Nc]; destruct Nc as [s s' ts E1 E2 F|e y Ex|L l s ts R1 R2].
  all: cbn [hrepg] in R; cbn [pnodes].
  1: contradiction.
  1,4: subst es; destruct I as [->|[]]; exists (fst e); right; now left.
  1,3: destruct R as (_ & R & _); assert (s = es) as -> by (destruct R as (R & _), R1 as (R' & _); congruence);
       destruct (trep_inv _ _ _ R2) as (us & tl & -> & Ch & _);
       destruct (chain_holds TLN TLE terep (fun y : hentry K V => TE (kv y))) with (2 := Ch) (x := x) as (v & Iv); [|exact I|exists v; right; rewrite flat_map_app; apply in_or_app; now left].
  1,2: intros y t [v e ts' (-> & _)]; exists (fst e); right; left; reflexivity.
  destruct R as (al & (_ & A & _) & Ch). rewrite A in F.
  assert (Z : exists v, In (v, TE (kv x)) (flat_map pnodes ts)); [|destruct Z as (v & Z); exists v; now right].
  clear E1 E2 A. revert ts F. induction Ch as [|i c ec al rest Rc Ne _ B2 Ch IHc]; intros ts F; [destruct I|]. cbn [map] in F.
  inversion F as [|? t ? ts' Nt F']; subst. cbn [flat_map]. apply in_app_or in I as [I|I].
  - destruct (IH _ _ _ _ Rc Nt x I) as (v & Iv). exists v. apply in_or_app. now left.
  - destruct (IHc I _ F') as (v & Iv). exists v. apply in_or_app. now right.
Qed.
Lemma hash_holds : forall K V ubits b (keq : K -> K -> bool) hash m (fm : fmap K V) G, hhrep ubits b keq hash m fm G -> holds TE fm G.
Proof.
  intros K V ubits b keq hash m fm G (w & (es & R & _ & P & _) & _ & _ & t & Nt & _ & ->). apply (holds_perm _ _ _ _ P).
  apply (holds_trees TE _ [t]). intros e I. apply in_map_iff in I as (x & <- & Ix). destruct (ntree_holds _ _ _ _ _ _ _ _ _ R Nt x Ix) as (a & Ia).
  exists a. cbn [flat_map]. apply in_or_app. now left.
Qed.

(** The entries of a map are all different. *)
Lemma unique_nodup : forall K V (keq : K -> K -> bool) (fm : fmap K V), (forall k, keq k k = true) -> unique_keys keq fm -> NoDup fm.
Proof.
  intros K V keq fm Rf U. induction U as [|e fm F U IH]; constructor; [|exact IH]. intros I. rewrite Forall_forall in F. specialize (F e I). now rewrite Rf in F.
Qed.
