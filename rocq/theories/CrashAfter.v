(** HashTrieMaps that have lost entries to caught panics: proofs for Prop_CrashAfter.v. *)
From Coq Require Import List NArith Arith Bool Lia Permutation.
From Verif Require Import Base Spec SpecMap SpecOrd Sim ListModel ListProofs SparseModel SparseProofs HashModel HashProofs HashHist
  HashExtraProofs HashIter CrashModel CrashProofs CrashAfterModel.
Import ListNotations.

(** ** Runs of a call for every number of user calls that return: from [c] on the call ends in one
    way -- it completes, or it unwinds by itself -- and below it is interrupted. *)
Definition cends {S A} (run : nat -> res (crash S A)) (Pd : A -> Prop) (Pu Po : S -> Prop) : Prop :=
  exists c (r : A + S), match r with inl a => Pd a | inr s => Po s end /\
  forall n, (c <= n -> run n = Ok (match r with inl a => Done (n - c) a | inr s => Unwound s end)) /\
            (n < c -> exists s, run n = Ok (Unwound s) /\ Pu s).

Section Ends.
Context {S A : Type}.
Lemma cends_ret : forall a (Pd : A -> Prop) (Pu Po : S -> Prop), Pd a -> cends (fun n => Ok (Done n a)) Pd Pu Po.
Proof. intros a Pd Pu Po H. exists 0, (inl a). split; [exact H|]. intros n. split; [now rewrite Nat.sub_0_r|lia]. Qed.
Lemma cends_own : forall s (Pd : A -> Prop) (Pu Po : S -> Prop), Po s -> cends (fun n => Ok (Unwound s)) Pd Pu Po.
Proof. intros s Pd Pu Po H. exists 0, (inr s). split; [exact H|]. intros n. split; [reflexivity|lia]. Qed.
Lemma cends_call : forall s (f : nat -> res (crash S A)) (Pd : A -> Prop) (Pu Po : S -> Prop), Pu s -> cends f Pd Pu Po ->
  cends (fun n => ucall n s f) Pd Pu Po.
Proof.
  intros s f Pd Pu Po Hs (c & r & Hr & H). exists (Datatypes.S c), r. split; [exact Hr|]. intros [|n]; cbn [ucall].
  - split; [lia|]. eauto.
  - destruct (H n) as (H1 & H2). split; intros Hn; [rewrite H1 by lia|apply H2; lia]. reflexivity.
Qed.
Lemma cends_weaken : forall (m : nat -> res (crash S A)) (Pd Pd' : A -> Prop) (Pu Pu' Po Po' : S -> Prop),
  cends m Pd Pu Po -> (forall a, Pd a -> Pd' a) -> (forall s, Pu s -> Pu' s) -> (forall s, Po s -> Po' s) ->
  cends m Pd' Pu' Po'.
Proof.
  intros m Pd Pd' Pu Pu' Po Po' (c & r & Hr & H) H1 H2 H3. exists c, r. split; [destruct r; auto|].
  intros n. split; [apply H|]. intros Hn. destruct (proj2 (H n) Hn) as (s & E & Hs). eauto.
Qed.
Lemma cends_ask : forall T (pre p : T -> bool) s e (f : nat -> bool -> res (crash S A)) (Pd : A -> Prop) (Pu Po : S -> Prop),
  (forall e, p e = true -> pre e = true) ->
  (pre e = true -> Pu s) -> cends (fun n => f n (p e)) Pd Pu Po -> cends (fun n => ask pre p n s e f) Pd Pu Po.
Proof.
  intros T pre p s e f Pd Pu Po Hpre Hs H. unfold ask. destruct (pre e) eqn:E.
  - apply cends_call; auto.
  - destruct (p e) eqn:Ep; [apply Hpre in Ep; congruence|assumption].
Qed.
End Ends.
Lemma cends_bind : forall S S' A B (m : nat -> res (crash S A)) (Pd : A -> Prop) (Pu Po : S -> Prop) (k : S -> S')
  (f : nat -> A -> res (crash S' B)) (Pd' : B -> Prop) (Pu' Po' : S' -> Prop),
  cends m Pd Pu Po -> (forall s, Pu s -> Pu' (k s)) -> (forall s, Po s -> Po' (k s)) ->
  (forall a, Pd a -> cends (fun n => f n a) Pd' Pu' Po') ->
  cends (fun n => cbind (m n) k f) Pd' Pu' Po'.
Proof.
  intros S S' A B m Pd Pu Po k f Pd' Pu' Po' (c1 & r & Hr & H1) Hk Ho Hf.
  assert (Hun : forall n, n < c1 -> exists s, cbind (m n) k f = Ok (Unwound s) /\ Pu' s).
  { intros n Hn. destruct (proj2 (H1 n) Hn) as (s & E & Hs). unfold cbind. rewrite E. cbn. eauto. }
  destruct r as [a|s].
  - destruct (Hf a Hr) as (c2 & r2 & Hr2 & H2). exists (c1 + c2), r2. split; [exact Hr2|].
    intros n. destruct (Nat.lt_ge_cases n c1) as [Hlt|Hge].
    + split; [lia|]. intros _. now apply Hun.
    + assert (E : cbind (m n) k f = f (n - c1) a) by (unfold cbind; rewrite (proj1 (H1 n) Hge); reflexivity).
      rewrite E. destruct (H2 (n - c1)) as (H3 & H4). split; intros Hn.
      * rewrite H3 by lia. now replace (n - c1 - c2) with (n - (c1 + c2)) by lia.
      * apply H4. lia.
  - exists c1, (inr (k s)). split; [auto|]. intros n. split; [|apply Hun]. intros Hn. unfold cbind. now rewrite (proj1 (H1 n) Hn).
Qed.

(** ** Lists *)
Section Lax.
Context {T : Type}.
Implicit Types (l : rlist T) (s : list T).

Lemma lax_push : forall l s v, l_lax l s -> l_lax (l_push_front_mut v l) (v :: s).
Proof. intros l s v (H1 & H3). split; cbn; [now rewrite H1|rewrite H3; lia]. Qed.
Lemma lax_drop : forall l a s, l_lax l (a :: s) -> exists l', l_drop_first_mut l = Ok (l', true) /\ l_lax l' s.
Proof.
  intros l a s (H1 & H3). unfold l_drop_first_mut. rewrite H1, H3. cbn [length]. rewrite csub_S. cbn [bind].
  eexists. split; [reflexivity|]. now split.
Qed.
Lemma lax_first : forall l s, l_lax l s -> l_first l = hd_error s.
Proof. intros l s (H & _). unfold l_first. rewrite H. now destruct s. Qed.
Lemma lax_is_empty : forall l s, l_lax l s -> l_is_empty l = is_nil s.
Proof. intros l s (_ & H). unfold l_is_empty, l_len. rewrite H. now destruct s. Qed.
Lemma lax_elems : forall l s, l_lax l s -> l_elems l = Ok s.
Proof.
  intros l s H. unfold l_elems. eapply sim_collect; [exact (iter_sim_sim0 _ _ _ _ _ l_iter_sim)|exact H|].
  destruct H as (_ & H). unfold l_len. lia.
Qed.
Lemma lax_fold_push : forall vs l s, l_lax l s ->
  l_lax (fold_left (fun acc v => l_push_front_mut v acc) vs l) (rev vs ++ s).
Proof.
  induction vs as [|v vs IH]; intros l s H; cbn [fold_left rev app]; [assumption|].
  rewrite <- app_assoc. apply IH. now apply lax_push.
Qed.
Lemma lax_write : forall l x s f, l_lax l (x :: s) -> l_lax (fst (l_first_mut f l)) (f x :: s).
Proof. intros l x s f (H1 & H3). unfold l_first_mut. rewrite H1. cbn [fst]. split; [reflexivity|exact H3]. Qed.

Variables pre p : T -> bool.
Hypothesis Hpre : forall e, p e = true -> pre e = true.

(** A cut of the list: a non-empty prefix is gone. *)
Definition lcut s l' : Prop := exists gone s', s = gone ++ s' /\ gone <> [] /\ l_lax l' s'.

Lemma c_lrf_loop_lax : forall s fuel before l, l_lax l s -> length s < fuel ->
  cends (fun n => c_lrf_loop pre p fuel n before l)
    (fun '(l', bf, o) => o = find p s /\
       match find p s with
       | None => bf = rev s ++ before /\ l_lax l' []
       | Some x => exists s1 s2, s = s1 ++ x :: s2 /\ nomatch p s1 /\ p x = true /\ bf = rev s1 ++ before /\ l_lax l' s2
       end) (lcut s) (fun _ => False).
Proof using Hpre.
  induction s as [|a s IH]; intros fuel before l Hl Hf; (destruct fuel as [|fuel]; [simpl in Hf; lia|]); cbn [c_lrf_loop];
    rewrite (lax_is_empty l _ Hl); cbn [is_nil].
  - apply cends_ret. cbn [find rev app]. auto.
  - rewrite (lax_first l _ Hl). cbn [hd_error unwrap bind].
    destruct (lax_drop l _ _ Hl) as (l' & -> & Hl'). cbn [bind]. apply cends_ask; [exact Hpre| |].
    { intros _. exists [a], s. repeat split; try apply Hl'. discriminate. }
    cbn [find]. destruct (p a) eqn:E.
    + apply cends_ret. split; [reflexivity|]. exists [], s. repeat split; auto; [intros x []|apply Hl'|apply Hl'].
    + simpl in Hf. eapply cends_weaken; [apply (IH fuel (a :: before) l' Hl'); lia| | |intros ? []].
      * intros ((l2 & bf) & o) (-> & H). split; [reflexivity|]. destruct (find p s) as [x|].
        -- destruct H as (s1 & s2 & -> & H1 & H2 & -> & Hr). exists (a :: s1), s2. cbn [rev]. rewrite <- app_assoc.
           repeat split; auto; [intros y [<-|Hy]; auto|apply Hr|apply Hr].
        -- destruct H as (-> & Hr). cbn [rev]. rewrite <- app_assoc. auto.
      * intros l2 (gone & s' & -> & Hg & H2). exists (a :: gone), s'. repeat split; try apply H2. discriminate.
Qed.

Lemma c_lrf_lax : forall l s, l_lax l s -> uniq p s ->
  cends (fun n => c_list_remove_first pre p n l)
    (fun '(l', o) => o = find p s /\ l_lax l' (filter (fun x => negb (p x)) s)) (lcut s) (fun _ => False).
Proof using Hpre.
  intros l s Hl Hu. unfold c_list_remove_first.
  assert (El : l_len l = length s) by apply Hl.
  eapply cends_bind; [apply (c_lrf_loop_lax s (S (l_len l)) [] l Hl); lia|auto|intros ? []|].
  intros ((l' & bf) & o) (-> & H). apply cends_ret. split; [reflexivity|].
  destruct (find p s) as [x|] eqn:E.
  - destruct H as (s1 & s2 & -> & H1 & H2 & -> & Hr).
    rewrite filter_split by eauto using uniq_split. rewrite app_nil_r.
    pose proof (lax_fold_push (rev s1) l' s2 Hr) as X. rewrite rev_involutive in X. exact X.
  - destruct H as (-> & Hr). rewrite nomatch_filter by (now apply find_none). rewrite app_nil_r.
    pose proof (lax_fold_push (rev s) l' [] Hr) as X. rewrite rev_involutive, app_nil_r in X. exact X.
Qed.

Lemma c_find_ends : forall s, cends (fun n => c_find pre p n s) (eq (find p s)) (fun _ => True) (fun _ => False).
Proof using Hpre.
  induction s as [|e s IH]; cbn [c_find find]; [now apply cends_ret|].
  apply cends_ask; [exact Hpre|auto|]. destruct (p e); [now apply cends_ret|exact IH].
Qed.
End Lax.

(** ** Nodes *)
Section HA.
Variable ubits : N.
Variable dbg : bool.
Variable b : N.
Hypothesis Hb : (0 < b)%N.
Hypothesis Hdeg : (2 ^ b <= ubits)%N.
Hypothesis Hub : (ubits <= 64)%N.
Context {K V Q : Type}.
Variable keq : K -> K -> bool.
Variable borrow : K -> Q.
Variable qeq : Q -> Q -> bool.

Notation entry := (hentry K V).
Notation bucket := (hbucket K V).
Notation node := (hnode K V).
Notation degree := (2 ^ b)%N.
Notation D := (D b).
Local Open Scope N_scope.
Set Default Proof Using "dbg Hb Hdeg Hub".

(** The children of a branch; they may be without entries. *)
Inductive dchl (R : N -> node -> list entry -> Prop) (dig : entry -> N) : list (N * node) -> list entry -> Prop :=
| dchl_nil : dchl R dig [] []
| dchl_cons : forall i c es al rest, R i c es -> (forall e, In e es -> dig e = i) ->
    dchl R dig al rest -> dchl R dig ((i, c) :: al) (es ++ rest).

(** A node at depth [d], under the digits [p], with the entries [es].  A collision bucket may have
    fewer than two entries if its hash has been [hit]: an interrupted call lost entries with it. *)
Fixpoint drep (hit : N -> Prop) (r d : nat) (p : N) (n : node) (es : list entry) : Prop :=
  match n with
  | HLeaf (BSingle e) => es = [e]
  | HLeaf (BCollision l) => r = 0%nat /\ l_lax l es /\ ((2 <= length es)%nat \/ hit p)
  | HBranch s =>
      match r with
      | O => False
      | S r' => exists al, sa_wf ubits s al /\
          dchl (fun i => drep hit r' (S d) (i * 2 ^ (N.of_nat d * b) + p)) (fun e => idx b d (e_hash e)) al es
      end
  end.

Lemma dchl_app : forall R dig l1 l2 es, dchl R dig (l1 ++ l2) es <->
  exists es1 es2, es = es1 ++ es2 /\ dchl R dig l1 es1 /\ dchl R dig l2 es2.
Proof using.
  intros R dig. induction l1 as [|[i c] l1 IH]; intros l2 es; cbn [app]; split.
  - intros H. exists [], es. repeat split; [constructor|assumption].
  - intros (es1 & es2 & -> & H1 & H2). inversion H1; subst. assumption.
  - intros H. inversion H as [|? ? ec ? rest Hr Hd Hrest]; subst.
    apply IH in Hrest as (es1 & es2 & -> & H1 & H2).
    exists (ec ++ es1), es2. rewrite app_assoc. repeat split; [|assumption]. constructor; auto.
  - intros (es1 & es2 & -> & H1 & H2).
    inversion H1 as [|? ? ec ? rest Hr Hd Hrest]; subst.
    rewrite <- app_assoc. constructor; auto. apply IH. eauto.
Qed.

Lemma dchl_in : forall R dig al es e, dchl R dig al es -> In e es -> exists q, In q al /\ fst q = dig e.
Proof using.
  intros R dig al es e H. induction H as [|i c ec al rest Hr Hd Hrest IH]; intros Hin; [destruct Hin|].
  apply in_app_iff in Hin as [Hin|Hin].
  - exists (i, c). split; [now left|]. simpl. symmetry. now apply Hd.
  - destruct (IH Hin) as (q & Hq & E). exists q. split; [now right|assumption].
Qed.

Lemma dchl_mono : forall (R R' : N -> node -> list entry -> Prop) dig al es, (forall i n es, R i n es -> R' i n es) ->
  dchl R dig al es -> dchl R' dig al es.
Proof using. intros R R' dig al es HR H. induction H; constructor; auto. Qed.

Lemma drep_mono : forall (hit hit' : N -> Prop), (forall x, hit x -> hit' x) ->
  forall r d p n es, drep hit r d p n es -> drep hit' r d p n es.
Proof using.
  intros hit hit' Hh. induction r as [|r IH]; intros d p [s|[e|l]] es H; cbn [drep] in *; auto.
  - destruct H as (H1 & H2 & [H3|H3]); auto.
  - destruct H as (al & Hw & Hc). exists al. split; [exact Hw|]. eapply dchl_mono; [|exact Hc]. cbv beta. auto.
  - destruct H as (H1 & H2 & [H3|H3]); auto.
Qed.

Definition avoids (h : N) (es : list entry) : Prop := forall e, In e es -> e_hash e <> h.
Lemma avoids_nomatch : forall (m : entry -> bool) h es, (forall e, m e = true -> e_hash e = h) -> avoids h es -> nomatch m es.
Proof using. intros m h es Hm Ha e He. destruct (m e) eqn:E; [|reflexivity]. now destruct (Ha e He (Hm e E)). Qed.

(** A branch seen from the hash [h]. *)
Lemma branch_cases : forall hit r d p s es h, drep hit (S r) d p (HBranch s) es -> (d + S r = D)%nat ->
  index_from_hash dbg h d degree = Ok (Some (idx b d h)) /\
  ((sa_get ubits dbg s (idx b d h) = Ok None /\ sa_get_mut ubits dbg s (idx b d h) = Ok None /\ avoids h es /\
    forall e, idx b d (e_hash e) = idx b d h -> exists s' es1 es2, sa_set ubits dbg s (idx b d h) (HLeaf (BSingle e)) = Ok s' /\
      es = es1 ++ es2 /\ drep hit (S r) d p (HBranch s') (es1 ++ e :: es2)) \/
   (exists c w es1 ec es2, sa_get ubits dbg s (idx b d h) = Ok (Some c) /\ sa_get_mut ubits dbg s (idx b d h) = Ok (Some (c, w)) /\
      es = es1 ++ ec ++ es2 /\ avoids h es1 /\ avoids h es2 /\
      drep hit r (S d) (idx b d h * 2 ^ (N.of_nat d * b) + p) c ec /\ (forall e, In e ec -> idx b d (e_hash e) = idx b d h) /\
      (forall c' ec' (hit' : N -> Prop), (forall x, hit x -> hit' x) ->
         drep hit' r (S d) (idx b d h * 2 ^ (N.of_nat d * b) + p) c' ec' -> (forall e, In e ec' -> idx b d (e_hash e) = idx b d h) ->
         drep hit' (S r) d p (HBranch (w c')) (es1 ++ ec' ++ es2)) /\
      (forall c', exists s', sa_remove ubits dbg (w c') (idx b d h) = Ok s' /\ drep hit (S r) d p (HBranch s') (es1 ++ es2)))).
Proof.
  intros hit r d p s es h (al & Hw & Hc) Hd.
  split. { rewrite (index_ok ubits dbg b Hb Hdeg Hub) by lia. now destruct (Nat.ltb_spec d D); [|lia]. }
  pose proof (Hu0 ubits dbg b Hb Hdeg Hub) as Hu. pose proof (idx_lt ubits dbg b Hb Hdeg Hub d h) as Hi.
  assert (Hav : forall (l1 l2 : list (N * node)) es0, below (idx b d h) l1 -> above (idx b d h) l2 ->
    forall R, dchl R (fun e => idx b d (e_hash e)) (l1 ++ l2) es0 -> avoids h es0).
  { intros l1 l2 es0 B A R H e He E. destruct (dchl_in _ _ _ _ _ H He) as (q & Hq & Eq). rewrite E in Eq.
    apply in_app_iff in Hq as [Hq|Hq]; [specialize (B q Hq)|specialize (A q Hq)]; lia. }
  destruct (sa_access ubits dbg Hu s al (idx b d h) Hw Hi)
    as [(l1 & l2 & -> & B & A & E1 & E2 & _ & Hset)|(l1 & c & l2 & -> & B & A & E1 & (w & E2 & Hset) & _ & _)]; [left|right].
  - split; [exact E1|]. split; [exact E2|]. split; [eapply Hav; eauto|]. intros e He.
    destruct (Hset (HLeaf (BSingle e))) as (s' & Es & Hw'). apply dchl_app in Hc as (es1 & es2 & -> & C1 & C2).
    exists s', es1, es2. split; [exact Es|]. split; [reflexivity|]. cbn [drep]. eexists. split; [exact Hw'|].
    apply dchl_app. exists es1, ([e] ++ es2). split; [reflexivity|]. split; [exact C1|]. constructor; auto.
    + destruct r; reflexivity.
    + intros e' [<-|[]]. exact He.
  - apply dchl_app in Hc as (es1 & rest & -> & C1 & C2). inversion C2 as [|? ? ec ? es2 Hr Hdg C3]; subst.
    exists c, w, es1, ec, es2. split; [exact E1|]. split; [exact E2|]. split; [reflexivity|].
    split. { eapply (Hav l1 []); [exact B|intros ? []|rewrite app_nil_r; exact C1]. }
    split. { eapply (Hav [] l2); [intros ? []|exact A|exact C3]. }
    split; [exact Hr|]. split; [exact Hdg|]. split.
    + intros c' ec' hit' Hh Hr' Hdg'. cbn [drep]. eexists. split; [apply Hset|]. apply dchl_app. exists es1, (ec' ++ es2).
      split; [reflexivity|].
      split; [eapply dchl_mono; [|exact C1]; cbv beta; intros i n0 es0; now apply drep_mono|].
      constructor; auto. eapply dchl_mono; [|exact C3]. cbv beta. intros i n0 es0. now apply drep_mono.
    + intros c'.
      destruct (sa_access ubits dbg Hu _ _ (idx b d h) (Hset c') Hi)
        as [(k1 & k2 & Ek & B1 & A1 & _)|(k1 & c1 & k2 & Ek & B1 & A1 & _ & _ & (s2 & Es & Hw2) & _)].
      { exfalso. assert (Hin : In (idx b d h, c') (k1 ++ k2)) by (rewrite <- Ek; apply in_elt).
        apply in_app_iff in Hin as [Hin|Hin]; [apply B1 in Hin|apply A1 in Hin]; simpl in Hin; lia. }
      assert (X : forall (a1 : list (N * node)) x a2 b1 y b2, a1 ++ (idx b d h, x) :: a2 = b1 ++ (idx b d h, y) :: b2 ->
            below (idx b d h) a1 -> below (idx b d h) b1 -> b1 = a1 /\ b2 = a2).
      { induction a1 as [|q a1 IHa]; intros x a2 b1 y b2 Eq Ba Bb; destruct b1 as [|q' b1].
        - split; [reflexivity|cbn [app] in Eq; congruence].
        - exfalso. assert (q' = (idx b d h, x)) by (cbn [app] in Eq; congruence). subst q'.
          specialize (Bb _ (or_introl eq_refl)). simpl in Bb. lia.
        - exfalso. assert (q = (idx b d h, y)) by (cbn [app] in Eq; congruence). subst q.
          specialize (Ba _ (or_introl eq_refl)). simpl in Ba. lia.
        - assert (q = q') by (cbn [app] in Eq; congruence). subst q'.
          destruct (IHa x a2 b1 y b2) as [-> ->]; [cbn [app] in Eq; congruence| | |auto];
            intros z Hz; [apply Ba|apply Bb]; now right. }
      destruct (X _ _ _ _ _ _ Ek B B1) as [-> ->]. exists s2. split; [exact Es|].
      cbn [drep]. exists (l1 ++ l2). split; [exact Hw2|]. apply dchl_app. eauto.
Qed.

(** How many entries have the hash [h]. *)
Definition many (h : N) (es : list entry) : nat := length (filter (same_hash h) es).

(** What an interrupted call leaves of a node. *)
Definition cutpost (hit : N -> Prop) (r d : nat) (p h : N) (es : list entry) (n' : node) : Prop :=
  exists es' gone, drep (fun x => hit x \/ gone <> [] /\ x = h) r d p n' es' /\ Permutation (es' ++ gone) es /\
    (forall e, In e gone -> e_hash e = h) /\ (gone <> [] -> (2 <= many h es)%nat \/ hit h).

Lemma cutpost_refl : forall hit r d p h n es, drep hit r d p n es -> cutpost hit r d p h es n.
Proof using.
  intros hit r d p h n es H. exists es, []. rewrite app_nil_r. repeat split; [eapply drep_mono; [|exact H]; auto|reflexivity|intros e []|].
  intros X. now destruct X.
Qed.

Lemma cutpost_branch : forall (hit : N -> Prop) r d p h (es1 ec es2 : list entry) (c' : node) w,
  (forall e, In e ec -> idx b d (e_hash e) = idx b d h) ->
  (forall c' ec' (hit' : N -> Prop), (forall x, hit x -> hit' x) ->
         drep hit' r (S d) (idx b d h * 2 ^ (N.of_nat d * b) + p) c' ec' -> (forall e, In e ec' -> idx b d (e_hash e) = idx b d h) ->
         drep hit' (S r) d p (HBranch (w c')) (es1 ++ ec' ++ es2)) ->
  cutpost hit r (S d) (idx b d h * 2 ^ (N.of_nat d * b) + p) h ec c' ->
  cutpost hit (S r) d p h (es1 ++ ec ++ es2) (HBranch (w c')).
Proof.
  intros hit r d p h es1 ec es2 c' w Hdg Hput (ec' & gone & Hr & Hp & Hg & Hc).
  exists (es1 ++ ec' ++ es2), gone. split; [|split; [|split]].
  - apply Hput; [auto|exact Hr|]. intros e He. apply Hdg. apply (Permutation_in _ Hp). apply in_app_iff. now left.
  - rewrite <- !app_assoc. apply Permutation_app_head. rewrite <- Hp, <- app_assoc. apply Permutation_app_head. apply Permutation_app_comm.
  - exact Hg.
  - intros X. destruct (Hc X) as [H|H]; [left|now right]. unfold many in *. rewrite !filter_app, !app_length. lia.
Qed.

(** A collision bucket lies on the path of its hash. *)
Lemma full_path : forall h, h < 2 ^ 64 -> h mod 2 ^ (N.of_nat D * b) = h.
Proof.
  intros h Hh. apply N.mod_small.
  assert (H64 : 64 <= N.of_nat D * b).
  { destruct (N.le_gt_cases 64 (N.of_nat D * b)) as [Hx|Hx]; [assumption|exfalso].
    apply (D_spec ubits dbg b Hb Hdeg Hub) in Hx. lia. }
  eapply N.lt_le_trans; [exact Hh|]. apply N.pow_le_mono_r; lia.
Qed.

Lemma many_all : forall h es, (forall e, In e es -> e_hash e = h) -> many h es = length es.
Proof using.
  intros h es H. unfold many. induction es as [|a es IH]; [reflexivity|]. cbn [filter]. unfold same_hash at 1.
  rewrite (H a (or_introl eq_refl)), N.eqb_refl. cbn [length]. rewrite IH; [reflexivity|]. intros e He. apply H. now right.
Qed.

Lemma lcut_post : forall hit p h l es l', l_lax l es -> ((2 <= length es)%nat \/ hit p) -> h = p ->
  (forall e, In e es -> e_hash e = h) -> lcut es l' -> cutpost hit 0 D p h es (HLeaf (BCollision l')).
Proof using.
  intros hit p h l es l' Hl H2 -> Hall (gone & s' & -> & Hg & Hl'). exists s', gone. split; [|split; [|split]].
  - cbn [drep]. split; [reflexivity|]. split; [exact Hl'|]. right. auto.
  - apply Permutation_app_comm.
  - intros e He. apply Hall. apply in_app_iff. now left.
  - intros _. rewrite many_all by exact Hall. exact H2.
Qed.

Lemma path_step : forall (h : N) d (es : list entry), (forall e, In e es -> idx b d (e_hash e) = idx b d h) ->
  on_path b h d es -> on_path b h (S d) es.
Proof.
  intros h d es Hdg Hp e He. rewrite !(digits_step ubits dbg b Hb Hdeg Hub). rewrite (Hdg e He). f_equal. now apply Hp.
Qed.

Lemma on_path_focus : forall h d (es1 ec es2 : list entry), on_path b h d (es1 ++ ec ++ es2) -> on_path b h d ec.
Proof using. intros h d es1 ec es2 H e He. apply H. rewrite !in_app_iff. auto. Qed.

(** *** Lookup *)
Lemma a_b_find_ok : forall h (m : entry -> bool) hit r d p bk es, (forall e, m e = true -> same_hash h e = true) ->
  drep hit r d p (HLeaf bk) es ->
  cends (fun n => c_b_find n h m bk) (eq (find m es)) (fun _ => True) (fun _ => False).
Proof using.
  intros h m hit r d p [e|l] es Hm H; cbn [c_b_find].
  - assert (es = [e]) by (destruct r; exact H). subst es. apply cends_ask; [exact Hm|auto|]. cbn [find]. apply cends_ret. now destruct (m e).
  - assert (Hl : l_lax l es) by (destruct r; apply H). rewrite (lax_elems _ _ Hl). cbn [bind]. now apply c_find_ends.
Qed.

Lemma a_hn_get_ok : forall q h hit fuel r d p n es, drep hit r d p n es -> (d + r = D)%nat -> (r < fuel)%nat ->
  cends (fun k => c_hn_get ubits dbg borrow qeq fuel k q h n d degree) (eq (find (matches borrow qeq q h) es))
    (fun _ => True) (fun _ => False).
Proof.
  intros q h hit. induction fuel as [|fuel IH]; intros r d p n es H Hd Hf; [lia|]. cbn [c_hn_get].
  destruct n as [s|bk]; [|eapply a_b_find_ok; [apply pre_matches|exact H]].
  destruct r as [|r]; [destruct H|].
  destruct (branch_cases hit r d p s es h H Hd) as (Ei & [(E1 & _ & Ha & _)|(c & w & es1 & ec & es2 & E1 & _ & -> & A1 & A2 & Hr & _)]);
    rewrite Ei; cbn [bind unwrap]; rewrite E1; cbn [bind].
  - apply cends_ret. apply nomatch_find. eapply avoids_nomatch; [apply matches_hash|exact Ha].
  - rewrite find_focus by (eapply avoids_nomatch; [apply matches_hash|assumption]). apply (IH r (S d) _ c ec Hr); lia.
Qed.

(** *** get_mut *)
Lemma a_hn_get_mut_ok : forall shared q f h hit, h < 2 ^ 64 -> forall fuel r d p n es, drep hit r d p n es -> (d + r = D)%nat -> (r < fuel)%nat ->
  p = h mod 2 ^ (N.of_nat d * b) -> on_path b h d es -> (forall e, In e es -> e_hash e < 2 ^ 64) ->
  uniq (matches borrow qeq q h) es ->
  cends (fun k => c_hn_get_mut ubits dbg borrow qeq fuel k shared q h f n d degree)
    (fun '(n', o) => o = option_map e_val (find (matches borrow qeq q h) es) /\ exists es', drep hit r d p n' es' /\
       Permutation es' (map (fun e => if matches borrow qeq q h e then e_write f e else e) es))
    (cutpost hit r d p h es) (fun _ => False).
Proof.
  intros shared q f h hit Hh. set (m := matches borrow qeq q h).
  induction fuel as [|fuel IH]; intros r d p n es H Hd Hf Hp Hpath Hrange Hu; [lia|]. cbn [c_hn_get_mut].
  destruct n as [s|bk].
  - destruct r as [|r]; [destruct H|].
    destruct (branch_cases hit r d p s es h H Hd)
      as (Ei & [(_ & E2 & Ha & _)|(c & w & es1 & ec & es2 & _ & E2 & -> & A1 & A2 & Hr & Hdg & Hput & _)]);
      rewrite Ei; cbn [bind unwrap]; rewrite E2; cbn [bind].
    + assert (Hn : nomatch m es) by (eapply avoids_nomatch; [apply matches_hash|exact Ha]).
      apply cends_ret. rewrite nomatch_find, nomatch_map by exact Hn. split; [reflexivity|]. exists es. now split.
    + assert (N1 : nomatch m es1) by (eapply avoids_nomatch; [apply matches_hash|exact A1]).
      assert (N2 : nomatch m es2) by (eapply avoids_nomatch; [apply matches_hash|exact A2]).
      eapply cends_bind; [apply (IH r (S d) _ c ec Hr); [lia|lia| | | |]| |intros ? []|].
      * rewrite (digits_step ubits dbg b Hb Hdeg Hub). now rewrite Hp.
      * apply path_step; [exact Hdg|]. eapply on_path_focus; exact Hpath.
      * intros e He. apply Hrange. rewrite !in_app_iff. auto.
      * eapply uniq_focus; exact Hu.
      * intros c' Hc. now apply (cutpost_branch hit r d p h es1 ec es2).
      * intros (c' & o) (-> & ec' & Hr' & Hpm). apply cends_ret. rewrite find_focus by assumption. split; [reflexivity|].
        exists (es1 ++ ec' ++ es2). rewrite map_focus by assumption. split.
        -- apply Hput; [auto|exact Hr'|]. intros e He. apply (Permutation_in _ Hpm) in He. apply in_map_iff in He as (e0 & <- & He0).
           destruct (m e0); [cbn [e_write e_hash]|]; apply Hdg; assumption.
        -- apply Permutation_app_head. apply Permutation_app_tail. assumption.
  - destruct bk as [e|l]; cbn [c_b_get_mut].
    + assert (es = [e]) by (destruct r; exact H). subst es.
      eapply cends_bind with (Pu := fun b' => b' = BSingle e) (Po := fun _ => False)
        (Pd := fun '(b', o) => o = option_map e_val (find m [e]) /\ b' = BSingle (if m e then e_write f e else e)); [| |intros ? []|].
      * apply cends_ask; [apply pre_matches|reflexivity|]. cbn [find]. fold m. destruct (m e); [|now apply cends_ret].
        destruct shared; [|now apply cends_ret]. apply cends_call; [reflexivity|]. apply cends_call; [reflexivity|]. now apply cends_ret.
      * intros b' ->. now apply cutpost_refl.
      * intros (b' & o) (-> & ->). apply cends_ret. split; [reflexivity|]. cbn [map]. exists [if m e then e_write f e else e].
        split; [destruct r; reflexivity|reflexivity].
    + destruct r as [|r]; [|destruct H as (H & _); discriminate]. cbn [drep] in H. destruct H as (_ & Hl & H2).
      assert (d = D) by lia. subst d. rewrite full_path in Hp by exact Hh. subst p.
      pose proof (path_end ubits dbg b Hb Hdeg Hub h es Hpath Hrange Hh) as Hall.
      eapply cends_bind with (Po := fun _ => False) (Pu := fun b' => cutpost hit 0 D h h es (HLeaf b'))
        (Pd := fun '(b', o) => o = option_map e_val (find m es) /\ exists es', drep hit 0 D h (HLeaf b') es' /\
           Permutation es' (map (fun e => if m e then e_write f e else e) es)); [|auto|intros ? []|].
      2:{ intros (b' & o) Hx. now apply cends_ret. }
      eapply cends_bind; [apply c_lrf_lax; [apply pre_matches|exact Hl|exact Hu]| |intros ? []|].
      * intros l' Hc. now apply (lcut_post hit h h l es l').
      * fold m. intros (l' & o) (-> & Hl').
        destruct (find m es) as [x|] eqn:Ef; cbv zeta.
        -- set (fs := filter (fun e => negb (m e)) es) in *.
           assert (Hperm : Permutation (x :: fs) es).
           { pose proof (perm_find_uniq ubits dbg b Hb Hdeg Hub m (fun e => e) es x Hu Ef) as P. cbv beta in P.
             rewrite (map_ext _ (fun e => e)) in P by (intros a; now destruct (m a)). rewrite map_id in P. exact P. }
           pose proof (lax_push l' fs x Hl') as Hp2.
           assert (Hd1 : forall l2 es2, l_lax l2 es2 -> length es2 = length es -> drep hit 0 D h (HLeaf (BCollision l2)) es2).
           { intros l2 es2 Hx Hlen. cbn [drep]. split; [reflexivity|]. split; [exact Hx|]. now rewrite Hlen. }
           assert (Hcp : cutpost hit 0 D h h es (HLeaf (BCollision (l_push_front_mut x l')))).
           { exists (x :: fs), []. rewrite app_nil_r. split; [|split; [exact Hperm|split; [intros ? []|intros X; now destruct X]]].
             eapply drep_mono; [|apply Hd1; [exact Hp2|now apply Permutation_length]]. auto. }
           assert (Hend : option_map e_val (l_first (l_push_front_mut x l')) = option_map e_val (Some x) /\
             exists es', drep hit 0 D h (HLeaf (BCollision (fst (l_first_mut (e_write f) (l_push_front_mut x l'))))) es' /\
               Permutation es' (map (fun e => if m e then e_write f e else e) es)).
           { rewrite (lax_first _ _ Hp2). split; [reflexivity|]. exists (e_write f x :: fs). split.
             - apply Hd1; [now apply lax_write|]. apply Permutation_length in Hperm. exact Hperm.
             - now apply (perm_find_uniq ubits dbg b Hb Hdeg Hub). }
           destruct shared; [apply cends_call; [exact Hcp|]; apply cends_call; [exact Hcp|]|]; now apply cends_ret.
        -- apply cends_ret. split; [reflexivity|]. exists es. rewrite nomatch_map by (now apply find_none).
           rewrite nomatch_filter in Hl' by (now apply find_none). split; [|reflexivity]. cbn [drep]. auto.
Qed.

(** *** insert *)
Lemma drep_empty : forall hit r d p, drep hit (S r) d p (new_empty_branch : node) [].
Proof. intros hit r d p. cbn [drep]. exists []. split; [exact (sa_wf_new ubits dbg (Hu0 ubits dbg b Hb Hdeg Hub))|constructor]. Qed.

Lemma a_b_insert_ok : forall e hit r d p bk es, e_hash e < 2 ^ 64 -> drep hit r d p (HLeaf bk) es -> (d + r = D)%nat ->
  p = e_hash e mod 2 ^ (N.of_nat d * b) -> on_path b (e_hash e) d es -> (forall x, In x es -> e_hash x < 2 ^ 64) ->
  uniq (matches_key keq (e_key e) (e_hash e)) es ->
  (r = 0%nat \/ is_some (find (matches_key keq (e_key e) (e_hash e)) es) = true) ->
  cends (fun k => c_b_insert keq k e bk)
    (fun '(b', new) => new = negb (is_some (find (matches_key keq (e_key e) (e_hash e)) es)) /\ exists es', drep hit r d p (HLeaf b') es' /\
       Permutation es' (e :: filter (fun x => negb (matches_key keq (e_key e) (e_hash e) x)) es))
    (fun b' => cutpost hit r d p (e_hash e) es (HLeaf b')) (fun _ => False).
Proof.
  intros e hit r d p bk es Hh H Hd Hp Hpath Hrange Hu Hwhere. set (m := matches_key keq (e_key e) (e_hash e)) in *.
  destruct bk as [o|l]; cbn [c_b_insert].
  - assert (es = [o]) by (destruct r; exact H). subst es.
    apply cends_ask; [apply pre_matches_key|intros _; now apply cutpost_refl|]. fold m. cbn [find filter] in *.
    destruct (m o) eqn:Hmo; apply cends_ret; (split; [reflexivity|]).
    + exists [e]. split; [destruct r; reflexivity|reflexivity].
    + exists [e; o]. split; [|reflexivity]. destruct Hwhere as [->|X]; [|discriminate]. cbn [drep].
      split; [reflexivity|]. split; [|left; simpl; lia]. apply lax_push. apply lax_push. now split.
  - destruct r as [|r]; [|destruct H as (H & _); discriminate]. cbn [drep] in H. destruct H as (_ & Hl & H2).
    assert (d = D) by lia. subst d. rewrite full_path in Hp by exact Hh. subst p.
    pose proof (path_end ubits dbg b Hb Hdeg Hub (e_hash e) es Hpath Hrange Hh) as Hall.
    eapply cends_bind; [apply c_lrf_lax; [apply pre_matches_key|exact Hl|exact Hu]| |intros ? []|].
    + intros l' Hc. now apply (lcut_post hit (e_hash e) (e_hash e) l es l').
    + fold m. intros (l' & o) (-> & Hl'). apply cends_ret. split; [reflexivity|].
      exists (e :: filter (fun x => negb (m x)) es). split; [|reflexivity]. cbn [drep]. split; [reflexivity|].
      split; [now apply lax_push|]. destruct H2 as [H2|H2]; [left|now right]. cbn [length].
      rewrite filter_len_uniq by exact Hu. destruct (is_some (find m es)); lia.
Qed.

Lemma a_hn_insert_ok : forall hit fuel e, e_hash e < 2 ^ 64 -> forall r d p n es, drep hit r d p n es -> (d + r = D)%nat ->
  (if is_branch n then 2 * r <= fuel else 2 * r < fuel)%nat ->
  p = e_hash e mod 2 ^ (N.of_nat d * b) -> on_path b (e_hash e) d es -> (forall x, In x es -> e_hash x < 2 ^ 64) ->
  uniq (matches_key keq (e_key e) (e_hash e)) es ->
  cends (fun k => c_hn_insert ubits dbg keq fuel k e n d degree)
    (fun '(n', new) => new = negb (is_some (find (matches_key keq (e_key e) (e_hash e)) es)) /\ exists es', drep hit r d p n' es' /\
       Permutation es' (e :: filter (fun x => negb (matches_key keq (e_key e) (e_hash e) x)) es))
    (cutpost hit r d p (e_hash e) es) (fun _ => False).
Proof.
  intros hit. induction fuel as [|fuel IH]; intros e Hh r d p n es H Hd Hf Hp Hpath Hrange Hu.
  { destruct n; cbn [is_branch] in Hf; [|lia]. destruct r; [destruct H|lia]. }
  cbn [c_hn_insert].
  destruct n as [s|bk]; cbn [is_branch] in Hf.
  - set (m := matches_key keq (e_key e) (e_hash e)) in *.
    destruct r as [|r]; [destruct H|].
    destruct (branch_cases hit r d p s es (e_hash e) H Hd)
      as (Ei & [(_ & E2 & Ha & Hset)|(c & w & es1 & ec & es2 & _ & E2 & -> & A1 & A2 & Hr & Hdg & Hput & _)]);
      rewrite Ei; cbn [bind unwrap]; rewrite E2; cbn [bind].
    + assert (Hn : nomatch m es) by (eapply avoids_nomatch; [apply matches_key_hash|exact Ha]).
      destruct (Hset e eq_refl) as (s' & es1 & es2 & -> & -> & Hd'). cbn [bind]. apply cends_ret.
      rewrite nomatch_find, nomatch_filter by exact Hn. split; [reflexivity|]. exists (es1 ++ e :: es2). split; [exact Hd'|].
      symmetry. apply Permutation_middle.
    + assert (N1 : nomatch m es1) by (eapply avoids_nomatch; [apply matches_key_hash|exact A1]).
      assert (N2 : nomatch m es2) by (eapply avoids_nomatch; [apply matches_key_hash|exact A2]).
      eapply cends_bind; [apply (IH e Hh r (S d) _ c ec Hr); [lia|destruct (is_branch c); lia| | | |]| |intros ? []|].
      * rewrite (digits_step ubits dbg b Hb Hdeg Hub). now rewrite Hp.
      * apply path_step; [exact Hdg|]. eapply on_path_focus; exact Hpath.
      * intros x Hx. apply Hrange. rewrite !in_app_iff. auto.
      * eapply uniq_focus; exact Hu.
      * intros c' Hc. now apply (cutpost_branch hit r d p (e_hash e) es1 ec es2).
      * fold m. intros (c' & o) (-> & ec' & Hr' & Hpm). apply cends_ret. rewrite find_focus by assumption. split; [reflexivity|].
        exists (es1 ++ ec' ++ es2). split; [|now apply (perm_insert_focus ubits dbg b Hb Hdeg Hub)].
        apply Hput; [auto|exact Hr'|]. intros x Hx. apply (Permutation_in _ Hpm) in Hx as [<-|Hx]; [reflexivity|].
        apply filter_In in Hx as [Hx _]. now apply Hdg.
  - rewrite (index_ok ubits dbg b Hb Hdeg Hub) by lia. cbn [bind].
    assert (Hins : (r = 0%nat \/ is_some (find (matches_key keq (e_key e) (e_hash e)) es) = true) ->
      cends (fun n => cbind (c_b_insert keq n e bk) (fun b' : bucket => HLeaf b') (fun n '(b', new) => Ok (Done n (HLeaf b', new))))
        (fun '(n', new) => new = negb (is_some (find (matches_key keq (e_key e) (e_hash e)) es)) /\ exists es', drep hit r d p n' es' /\
           Permutation es' (e :: filter (fun x => negb (matches_key keq (e_key e) (e_hash e) x)) es))
        (cutpost hit r d p (e_hash e) es) (fun _ => False)).
    { intros Hwhere. eapply cends_bind; [apply (a_b_insert_ok e hit r d p bk es); assumption|auto|intros ? []|].
      intros (b' & new) Hx. now apply cends_ret. }
    eapply cends_bind; [eapply a_b_find_ok; [apply pre_matches_key|exact H]|intros _ _; now apply cutpost_refl|intros ? []|].
    intros o <-. cbv zeta. destruct (Nat.ltb_spec d D) as [Hlt|Hge]; cbn [is_some negb]; [|apply Hins; left; lia].
    destruct (is_some (find (matches_key keq (e_key e) (e_hash e)) es)) eqn:Ef; [apply Hins; now right|]. clear Hins.
    destruct r as [|r]; [lia|]. destruct bk as [old|l]; [|destruct H as (H & _); discriminate].
    cbn [drep] in H. subst es.
    destruct fuel as [|fuel]; [lia|].
    assert (Hold : cends (fun k => c_hn_insert ubits dbg keq (S fuel) k old (new_empty_branch : node) d degree)
       (fun '(n', _) => drep hit (S r) d p n' [old] /\ is_branch n' = true) (fun _ => False) (fun _ => False)).
    { unfold new_empty_branch. cbn [c_hn_insert].
      destruct (branch_cases hit r d p _ [] (e_hash old) (drep_empty hit r d p) Hd)
        as (Ei & [(_ & E2 & Ha & Hset)|(c & w & es1 & ec & es2 & E1 & E2 & _)]); rewrite Ei; cbn [bind unwrap]; rewrite E2; cbn [bind].
      - destruct (Hset old eq_refl) as (s' & es1 & es2 & -> & Ee & Hd'). cbn [bind]. apply cends_ret.
        symmetry in Ee. apply app_eq_nil in Ee as [-> ->]. split; [exact Hd'|reflexivity].
      - exfalso.
        assert (E : match sa_get_mut ubits dbg (sa_new : sarr node) (idx b d (e_hash old)) with Ok (Some _) => False | _ => True end).
        { unfold sa_get_mut. destruct (debug_assert _ _); [cbn [bind]|exact I|exact I].
          destruct (map_index _ _ _ _) as [[j|]| |]; try exact I. cbn [sa_new sa_array bind]. destruct j; exact I. }
        now rewrite E2 in E. }
    eapply cends_bind; [exact Hold|intros ? []|intros ? []|]. clear Hold.
    intros (n1 & x) (Hr1 & Hb1).
    eapply cends_bind; [apply (IH e Hh (S r) d p n1 [old] Hr1 Hd); [rewrite Hb1; lia|assumption..]|auto|intros ? []|].
    intros (n2 & y) (_ & Hx). apply cends_ret. split; [reflexivity|exact Hx].
Qed.

(** *** remove *)
Definition sturdy (n : node) : Prop := match n with HLeaf (BCollision l) => (2 <= l_len l)%nat | _ => True end.

(** What is left when a removal panics by itself: the bucket is now empty. *)
Definition ownpost (hit : N -> Prop) (m : entry -> bool) (r d : nat) (p h : N) (es : list entry) (n' : node) : Prop :=
  hit h /\ drep hit r d p n' (filter (fun e => negb (m e)) es) /\ forall e, In e es -> e_hash e = h -> m e = true.

Lemma a_compress_ok : forall hit r d p s es, drep hit (S r) d p (HBranch s) es ->
  exists n', hn_compress (HBranch s : node) = Ok n' /\ drep hit (S r) d p n' es /\ sturdy n' /\
    (hn_is_empty dbg n' = Ok true -> es = []) /\ exists e, hn_is_empty dbg n' = Ok e.
Proof.
  intros hit r d p s es H. pose proof H as (al & Hw & Hc). unfold hn_compress.
  pose proof (Hu0 ubits dbg b Hb Hdeg Hub) as Hu.
  assert (Hs := sa_size_ok ubits dbg Hu s al Hw).
  assert (Hdef : forall n' : node, n' = HBranch s -> Ok n' = Ok n' -> exists n'0, Ok n' = Ok n'0 /\ drep hit (S r) d p n'0 es /\ sturdy n'0 /\
     (hn_is_empty dbg n'0 = Ok true -> es = []) /\ exists e, hn_is_empty dbg n'0 = Ok e).
  { intros n' -> _. exists (HBranch s). split; [reflexivity|]. split; [exact H|]. split; [exact I|].
    cbn [hn_is_empty]. split; [|eauto]. rewrite Hs. intros E. destruct al; [inversion Hc; now subst|discriminate]. }
  rewrite Hs. pose proof Hw as (_ & Ea & _).
  destruct al as [|[i c] [|q al]]; cbn [length]; [now apply Hdef| |now apply Hdef].
  unfold sa_first, sa_pop. rewrite Ea. cbn [map snd hd_error unwrap bind].
  destruct c as [s'|[e|l]]; [now apply Hdef| |now apply Hdef].
  exists (HLeaf (BSingle e)). split; [reflexivity|].
  inversion Hc as [|? ? ec ? rest Hr Hdg Hrest]; subst. inversion Hrest; subst. rewrite app_nil_r in *.
  assert (ec = [e]) by (destruct r; exact Hr). subst ec. repeat split; [discriminate|cbn [hn_is_empty]; eauto].
Qed.

Lemma a_hn_remove_ok : forall q h hit, h < 2 ^ 64 -> forall fuel r d p n es, drep hit r d p n es -> (d + r = D)%nat -> (r < fuel)%nat ->
  p = h mod 2 ^ (N.of_nat d * b) -> on_path b h d es -> (forall e, In e es -> e_hash e < 2 ^ 64) ->
  uniq (matches borrow qeq q h) es ->
  cends (fun k => a_hn_remove ubits dbg borrow qeq fuel k q h n d degree)
    (fun '(n', x) => x = is_some (find (matches borrow qeq q h) es) /\
       (drep hit r d p n' (filter (fun e => negb (matches borrow qeq q h e)) es) \/
        n' = new_empty_branch /\ x = true /\ filter (fun e => negb (matches borrow qeq q h e)) es = []) /\
       (hn_is_empty dbg n' = Ok true -> filter (fun e => negb (matches borrow qeq q h e)) es = []) /\
       exists e, hn_is_empty dbg n' = Ok e)
    (cutpost hit r d p h es) (ownpost hit (matches borrow qeq q h) r d p h es).
Proof.
  intros q h hit Hh. set (m := matches borrow qeq q h).
  induction fuel as [|fuel IH]; intros r d p n es H Hd Hf Hp Hpath Hrange Hu; [lia|]. cbn [a_hn_remove].
  destruct n as [s|bk].
  - destruct r as [|r]; [destruct H|].
    destruct (branch_cases hit r d p s es h H Hd)
      as (Ei & [(_ & E2 & Ha & _)|(c & w & es1 & ec & es2 & _ & E2 & -> & A1 & A2 & Hr & Hdg & Hput & Hrem)]);
      rewrite Ei; cbn [bind unwrap]; rewrite E2; cbn [bind].
    + assert (Hn : nomatch m es) by (eapply avoids_nomatch; [apply matches_hash|exact Ha]).
      apply cends_ret. rewrite nomatch_find, nomatch_filter by exact Hn. split; [reflexivity|]. split; [now left|].
      split; [|cbn [hn_is_empty]; eauto]. cbn [hn_is_empty]. destruct H as (al & Hw & Hc).
      rewrite (sa_size_ok ubits dbg (Hu0 ubits dbg b Hb Hdeg Hub) s al Hw). intros E. destruct al; [inversion Hc; now subst|discriminate].
    + assert (N1 : nomatch m es1) by (eapply avoids_nomatch; [apply matches_hash|exact A1]).
      assert (N2 : nomatch m es2) by (eapply avoids_nomatch; [apply matches_hash|exact A2]).
      eapply cends_bind; [apply (IH r (S d) _ c ec Hr); [lia|lia| | | |]| | |].
      * rewrite (digits_step ubits dbg b Hb Hdeg Hub). now rewrite Hp.
      * apply path_step; [exact Hdg|]. eapply on_path_focus; exact Hpath.
      * intros e He. apply Hrange. rewrite !in_app_iff. auto.
      * eapply uniq_focus; exact Hu.
      * intros c' Hc. now apply (cutpost_branch hit r d p h es1 ec es2).
      * intros c' (Hhit & Hr' & Honly). split; [exact Hhit|]. split.
        -- rewrite filter_focus by assumption. apply Hput; [auto|exact Hr'|].
           intros e He. apply filter_In in He as [He _]. now apply Hdg.
        -- intros e He Ee. rewrite !in_app_iff in He. destruct He as [He|[He|He]].
           ++ now destruct (A1 e He).
           ++ now apply Honly.
           ++ now destruct (A2 e He).
      * rewrite find_focus, filter_focus by assumption.
        intros (c' & x) (Ex & Hcase & Hemp & em & Eem). cbv zeta. rewrite Eem. cbn [bind].
        set (ec' := filter (fun e => negb (m e)) ec) in *.
        assert (Hdg' : forall e, In e ec' -> idx b d (e_hash e) = idx b d h).
        { intros e He. apply filter_In in He as [He _]. now apply Hdg. }
        assert (Hfin : forall s2 esr, drep hit (S r) d p (HBranch s2) esr ->
          cends (S := node) (fun k => let! n' := hn_compress (HBranch s2) in Ok (Done k (n', true)))
            (fun '(n', x) => x = true /\ (drep hit (S r) d p n' esr \/ n' = new_empty_branch /\ x = true /\ esr = []) /\
               (hn_is_empty dbg n' = Ok true -> esr = []) /\ exists e, hn_is_empty dbg n' = Ok e)
            (cutpost hit (S r) d p h (es1 ++ ec ++ es2)) (ownpost hit m (S r) d p h (es1 ++ ec ++ es2))).
        { intros s2 esr Hd2. destruct (a_compress_ok hit r d p s2 esr Hd2) as (n' & -> & Hn' & _ & He1 & He2). cbn [bind].
          apply cends_ret. auto. }
        destruct x.
        -- rewrite <- Ex. destruct em.
           ++ destruct (Hrem c') as (s2 & -> & Hd2). cbn [bind]. rewrite (Hemp Eem). cbn [app]. now apply Hfin.
           ++ apply Hfin. destruct Hcase as [Hr'|(-> & _ & _)]; [now apply Hput|]. discriminate.
        -- rewrite <- Ex.
           assert (Hr' : drep hit r (S d) (idx b d h * 2 ^ (N.of_nat d * b) + p) c' ec').
           { destruct Hcase as [Hr'|(_ & X & _)]; [exact Hr'|discriminate]. }
           pose proof (Hput c' ec' hit (fun x H => H) Hr' Hdg') as Hd2.
           assert (Hret : cends (S := node) (fun k => Ok (Done k (HBranch (w c'), false)))
            (fun '(n', x) => x = false /\ (drep hit (S r) d p n' (es1 ++ ec' ++ es2) \/ n' = new_empty_branch /\ x = true /\ es1 ++ ec' ++ es2 = []) /\
               (hn_is_empty dbg n' = Ok true -> es1 ++ ec' ++ es2 = []) /\ exists e, hn_is_empty dbg n' = Ok e)
            (cutpost hit (S r) d p h (es1 ++ ec ++ es2)) (ownpost hit m (S r) d p h (es1 ++ ec ++ es2))).
           { apply cends_ret. split; [reflexivity|]. split; [now left|]. cbn [hn_is_empty]. split; [|eauto].
             destruct Hd2 as (al & Hw & Hc). rewrite (sa_size_ok ubits dbg (Hu0 ubits dbg b Hb Hdeg Hub) _ al Hw).
             intros E. destruct al; [inversion Hc; congruence|discriminate]. }
           destruct em; exact Hret.
  - destruct bk as [e|l]; cbn [a_b_remove].
    + assert (es = [e]) by (destruct r; exact H). subst es.
      eapply cends_bind with (Pu := fun b' => b' = BSingle e) (Po := fun _ => False)
        (Pd := fun '(ob, x) => x = m e /\ ob = if m e then None else Some (BSingle e)); [| |intros ? []|].
      * apply cends_ask; [apply pre_matches|reflexivity|]. fold m. destruct (m e); now apply cends_ret.
      * intros b' ->. now apply cutpost_refl.
      * intros (ob & x) (-> & ->). apply cends_ret. cbn [find filter]. destruct (m e); cbn [negb is_some].
        -- split; [reflexivity|]. split; [now right|]. split; [reflexivity|]. exists true. reflexivity.
        -- split; [reflexivity|]. split; [left; destruct r; reflexivity|]. split; [discriminate|]. exists false. reflexivity.
    + destruct r as [|r]; [|destruct H as (H & _); discriminate]. cbn [drep] in H. destruct H as (_ & Hl & H2).
      assert (d = D) by lia. subst d. rewrite full_path in Hp by exact Hh. subst p.
      pose proof (path_end ubits dbg b Hb Hdeg Hub h es Hpath Hrange Hh) as Hall.
      set (fs := filter (fun e => negb (m e)) es).
      eapply cends_bind with (Pu := fun b' => cutpost hit 0 D h h es (HLeaf b')) (Po := fun b' => ownpost hit m 0 D h h es (HLeaf b'))
        (Pd := fun '(ob, x) => x = is_some (find m es) /\ exists b', ob = Some b' /\ drep hit 0 D h (HLeaf b') fs /\ sturdy (HLeaf b'));
        [|auto|auto|].
      2:{ intros (ob & x) (-> & b' & -> & Hd' & Hst). apply cends_ret. split; [reflexivity|]. split; [now left|].
          destruct b' as [e|l']; cbn [hn_is_empty sturdy] in *.
          - split; [discriminate|eauto].
          - unfold debug_assert. destruct (Nat.leb_spec 2 (l_len l')); [|lia]. rewrite andb_false_r. cbn [bind]. split; [discriminate|eauto]. }
      eapply cends_bind; [apply c_lrf_lax; [apply pre_matches|exact Hl|exact Hu]| |intros ? []|].
      * intros l' Hc. now apply (lcut_post hit h h l es l').
      * fold m. fold fs. intros (l' & o) (-> & Hl').
        assert (El : l_len l' = length fs) by apply Hl'. rewrite El.
        assert (Hfl : length fs = (length es - (if is_some (find m es) then 1 else 0))%nat).
        { unfold fs. now rewrite filter_len_uniq. }
        destruct fs as [|x [|y fs0]] eqn:Efs; cbn [length].
        -- apply cends_own. split; [|split].
           ++ destruct H2 as [H2|H2]; [|exact H2]. simpl in Hfl. destruct (is_some (find m es)); lia.
           ++ cbn [drep]. unfold fs in Efs. rewrite Efs. split; [reflexivity|]. split; [exact Hl'|]. right.
              destruct H2 as [H2|H2]; [|exact H2]. simpl in Hfl. destruct (is_some (find m es)); lia.
           ++ intros e He _. destruct (m e) eqn:Em; [reflexivity|]. exfalso.
              assert (Hin : In e fs) by (unfold fs; apply filter_In; now rewrite Em). rewrite Efs in Hin. destruct Hin.
        -- rewrite (lax_first _ _ Hl'). cbn [hd_error unwrap bind]. apply cends_ret. split; [reflexivity|].
           exists (BSingle x). repeat split.
        -- apply cends_ret. split; [reflexivity|]. exists (BCollision l'). split; [reflexivity|]. split.
           ++ cbn [drep]. split; [reflexivity|]. split; [exact Hl'|]. left. simpl. lia.
           ++ cbn [sturdy]. rewrite El. simpl. lia.
Qed.
End HA.
Unset Default Proof Using.

(** ** Maps *)
Lemma split_len : forall A (f : A -> bool) (l : list A), (length (filter f l) + length (filter (fun x => negb (f x)) l) = length l)%nat.
Proof. induction l as [|x l IH]; [reflexivity|]. cbn [filter]. destruct (f x); cbn [negb length]; lia. Qed.
Section MA.
Variable ubits : N.
Variable dbg : bool.
Variable b : N.
Hypothesis Hb : (0 < b)%N.
Hypothesis Hdeg : (2 ^ b <= ubits)%N.
Hypothesis Hub : (ubits <= 64)%N.
Context {K V Q : Type}.
Variable keq : K -> K -> bool.
Variable borrow : K -> Q.
Variable qeq : Q -> Q -> bool.
Variable hash : K -> N.
Variable qhash : Q -> N.
Hypothesis KL : key_laws keq borrow qeq.
Hypothesis HL : hash_laws borrow qeq hash qhash.
Variable fuel : nat.
Hypothesis Hfuel : (2 * D b < fuel)%nat.

Notation entry := (hentry K V).
Notation node := (hnode K V).
Notation degree := (2 ^ b)%N.
Local Open Scope N_scope.
Set Default Proof Using "dbg Hb Hdeg Hub KL HL Hfuel".

Definition hits (lost : list (K * V)) (h : N) : Prop := exists x, In x lost /\ hash (fst x) = h.

(** The map [m] has the entries [fm]; [lost] are those that interrupted calls have lost. *)
Definition dm_rep (m : hmap K V) (fm : fmap K V) (lost : list (K * V)) : Prop :=
  exists es, @drep ubits b K V (hits lost) (D b) 0 0 (hm_root m) es /\ hash_ok hash es /\
    Permutation (map kv es) fm /\ unique_keys keq fm /\
    hm_size m = (length fm + length lost)%nat /\ hm_degree m = degree.

Definition is_key (q : Q) (x : K * V) : bool := qeq (borrow (fst x)) q.

(** What an interrupted call with the hash [h] leaves. *)
Definition mcut (h : N) (fm : fmap K V) (lost : list (K * V)) (m' : hmap K V) : Prop :=
  exists fm' gone, dm_rep m' fm' (gone ++ lost) /\ Permutation (fm' ++ gone) fm /\
    (forall x, In x gone -> hash (fst x) = h) /\ (gone <> [] -> (2 <= crowd hash h fm)%nat \/ hits lost h).
(** What a removal leaves that panics by itself. *)
Definition mown (q : Q) (fm : fmap K V) (lost : list (K * V)) (m' : hmap K V) : Prop :=
  hits lost (qhash q) /\ (forall x, In x fm -> hash (fst x) = qhash q -> is_key q x = true) /\
  dm_rep m' (fm_remove borrow qeq q fm) (filter (is_key q) fm ++ lost).

Lemma mcut_refl : forall h m fm lost, dm_rep m fm lost -> mcut h fm lost m.
Proof using.
  intros h m fm lost H. exists fm, []. rewrite app_nil_r. split; [exact H|]. split; [reflexivity|]. split; [intros x []|].
  intros X. now destruct X.
Qed.

Lemma es_range : forall es, hash_ok hash es -> forall e : entry, In e es -> e_hash e < 2 ^ 64.
Proof using HL. intros es Hho e He. rewrite (Hho e He), (hl_borrow _ _ _ _ HL). apply (hl_range _ _ _ _ HL). Qed.

Lemma unique_app : forall (l1 l2 : fmap K V), unique_keys keq (l1 ++ l2) -> unique_keys keq l1.
Proof using.
  induction l1 as [|x l1 IH]; intros l2 H; [constructor|]. inversion H as [|? ? Hx Hr]; subst.
  apply Forall_app in Hx. constructor; [apply Hx|]. now apply (IH l2).
Qed.

Lemma cutpost_mcut : forall h m fm lost es n', Permutation (map kv es) fm -> hash_ok hash es -> unique_keys keq fm ->
  hm_size m = (length fm + length lost)%nat -> hm_degree m = degree ->
  @cutpost ubits b K V (hits lost) (D b) 0 0 h es n' -> mcut h fm lost (hm_with m n').
Proof.
  intros h m fm lost es n' Hp Hho Hu Hs Hd (es' & gone & Hr & Hpg & Hg & Hc).
  assert (Hpm : Permutation (map kv es' ++ map kv gone) fm) by (rewrite <- map_app, <- Hp; now apply Permutation_map).
  assert (Hin : forall e, In e es' \/ In e gone -> In e es).
  { intros e He. apply (Permutation_in _ Hpg). now apply in_app_iff. }
  exists (map kv es'), (map kv gone). split; [|split; [exact Hpm|split]].
  - exists es'. cbn [hm_with hm_root hm_size hm_degree]. split; [|split; [|split; [reflexivity|split; [|split; [|exact Hd]]]]].
    + eapply drep_mono; [|exact Hr]. intros x [(y & Hy & E)|(Hne & ->)].
      * exists y. split; [apply in_app_iff; now right|exact E].
      * destruct gone as [|e gone]; [now destruct Hne|]. exists (kv e). split; [now left|]. cbn [kv fst].
        rewrite <- (Hho e) by (apply Hin; right; now left). apply Hg. now left.
    + intros e He. apply Hho. auto.
    + eapply unique_app. eapply unique_perm; [exact KL|symmetry; exact Hpm|exact Hu].
    + rewrite Hs. apply Permutation_length in Hpm. rewrite app_length in *. lia.
  - intros x Hx. apply in_map_iff in Hx as (e & <- & He). cbn [kv fst]. rewrite <- (Hho e) by auto. now apply Hg.
  - intros Hne. rewrite (crowd_alone hash h es fm Hho Hp). apply Hc. intros ->. now apply Hne.
Qed.

Lemma a_find_ok : forall m fm lost q, dm_rep m fm lost ->
  cends (fun n => c_hm_find ubits dbg borrow qeq qhash fuel n m q)
    (fun o => option_map kv o = fm_find borrow qeq q fm) (fun m' => m' = m) (fun _ => False).
Proof.
  intros m fm lost q (es & Hr & Hho & Hp & Hu & Hs & Hd). unfold c_hm_find. apply cends_call; [reflexivity|]. rewrite Hd.
  eapply cends_bind; [apply (a_hn_get_ok ubits dbg b Hb Hdeg Hub borrow qeq q (qhash q) (hits lost) fuel (D b) 0 0 _ es Hr); lia|reflexivity|intros ? []|].
  intros o <-. apply cends_ret. now apply (HashHist.rep_find ubits dbg b Hb Hdeg Hub keq borrow qeq hash qhash KL HL fuel Hfuel).
Qed.

Lemma p0 : forall h, 0 = h mod 2 ^ (N.of_nat 0 * b).
Proof using. intros h. change (N.of_nat 0) with 0. now rewrite N.mul_0_l, N.pow_0_r, N.mod_1_r. Qed.

Lemma a_insert_ok : forall m fm lost k v, dm_rep m fm lost ->
  cends (fun n => c_hm_insert_mut ubits dbg keq hash fuel n m k v)
    (fun m' => dm_rep m' (fm_insert keq k v fm) lost) (mcut (hash k) fm lost) (fun _ => False).
Proof.
  intros m fm lost k v H. pose proof H as (es & Hr & Hho & Hp & Hu & Hs & Hd). unfold c_hm_insert_mut.
  apply cends_call; [now apply mcut_refl|]. rewrite Hd.
  eapply cends_bind; [apply (a_hn_insert_ok ubits dbg b Hb Hdeg Hub keq (hits lost) fuel (mkE k v (hash k))) with (r := D b) (p := 0) (es := es)| |intros ? []|].
  - cbn [e_hash]. rewrite (hl_borrow _ _ _ _ HL). apply (hl_range _ _ _ _ HL).
  - exact Hr.
  - lia.
  - destruct (is_branch _); lia.
  - cbn [e_hash]. apply p0.
  - apply on_path_0.
  - now apply es_range.
  - cbn [e_key e_hash]. now apply (rep_uniq_k ubits dbg b Hb Hdeg Hub keq borrow qeq hash qhash KL HL fuel Hfuel es fm).
  - intros n' Hc. now apply (cutpost_mcut _ m fm lost es n').
  - cbn [e_key e_hash]. intros (n' & new) (-> & es' & Hr' & Hp'). apply cends_ret.
    pose proof (rep_find_k ubits dbg b Hb Hdeg Hub keq borrow qeq hash qhash KL HL fuel Hfuel es fm k Hho Hp Hu) as Hfk.
    exists es'. cbn [hm_root hm_size hm_degree]. split; [exact Hr'|]. split; [|split; [|split; [|split; [|reflexivity]]]].
    + intros e He. apply (Permutation_in _ Hp') in He as [<-|He]; [reflexivity|]. apply filter_In in He as [He _]. auto.
    + rewrite Hp'. cbn [map]. unfold fm_insert. change (kv (mkE k v (hash k))) with (k, v). constructor.
      rewrite (filter_ext_in _ (fun e => negb (keq (fst (kv e)) k))).
      * rewrite <- (filter_map _ _ kv (fun x => negb (keq (fst x) k))). now apply Permutation_filter.
      * intros e He. f_equal. now apply (matches_k ubits dbg b Hb Hdeg Hub keq borrow qeq hash qhash KL HL fuel Hfuel es).
    + now apply (unique_insert keq borrow qeq KL).
    + rewrite Hs. unfold fm_insert. cbn [length].
      rewrite (filter_len_uniq (fun x => keq (fst x) k)) by (now apply (unique_uniq_key keq borrow qeq KL)).
      rewrite <- Hfk, is_some_map.
      destruct (find (matches_key keq k (hash k)) es) as [x|] eqn:Ef; cbn [is_some negb]; [|lia].
      apply find_some in Ef as [Ef _]. apply Permutation_length in Hp. rewrite map_length in Hp.
      destruct es; [destruct Ef|]. simpl in Hp. lia.
Qed.

Lemma a_get_mut_ok : forall shared m fm lost q f, dm_rep m fm lost ->
  cends (fun n => c_hm_get_mut ubits dbg borrow qeq qhash fuel n shared m q f)
    (fun '(m', o) => o = option_map snd (fm_find borrow qeq q fm) /\ dm_rep m' (fm_modify borrow qeq q f fm) lost)
    (mcut (qhash q) fm lost) (fun _ => False).
Proof.
  intros shared m fm lost q f H. pose proof H as (es & Hr & Hho & Hp & Hu & Hs & Hd). unfold c_hm_get_mut.
  apply cends_call; [now apply mcut_refl|]. rewrite Hd.
  eapply cends_bind; [apply (a_hn_get_mut_ok ubits dbg b Hb Hdeg Hub borrow qeq shared q f (qhash q) (hits lost)
     (hl_range _ _ _ _ HL q) fuel (D b) 0 0 _ es Hr)| |intros ? []|].
  - lia.
  - lia.
  - apply p0.
  - apply on_path_0.
  - now apply es_range.
  - now apply (rep_uniq_q ubits dbg b Hb Hdeg Hub keq borrow qeq hash qhash KL HL fuel Hfuel es fm).
  - intros n' Hc. now apply (cutpost_mcut _ m fm lost es n').
  - intros (n' & o) (-> & es' & Hr' & Hp'). apply cends_ret. split.
    { rewrite <- (HashHist.rep_find ubits dbg b Hb Hdeg Hub keq borrow qeq hash qhash KL HL fuel Hfuel es fm q Hho Hp Hu).
      now destruct (find _ es). }
    exists es'. cbn [hm_root hm_size hm_degree]. split; [exact Hr'|]. split; [|split; [|split; [|split; [|reflexivity]]]].
    + intros e He. apply (Permutation_in _ Hp') in He. apply in_map_iff in He as (e0 & <- & He0).
      destruct (matches borrow qeq q (qhash q) e0); [cbn [e_write e_hash e_key]|]; auto.
    + rewrite Hp'. unfold fm_modify. rewrite <- Hp, !map_map.
      rewrite (map_ext_in _ (fun e => if qeq (borrow (fst (kv e))) q then (fst (kv e), f (snd (kv e))) else kv e));
        [reflexivity|]. intros e He.
      rewrite (matches_q ubits dbg b Hb Hdeg Hub keq borrow qeq hash qhash KL HL fuel Hfuel es) by assumption.
      destruct (qeq (borrow (fst (kv e))) q); reflexivity.
    + now apply unique_modify.
    + rewrite Hs. unfold fm_modify. now rewrite map_length.
Qed.

Lemma a_remove_ok : forall m fm lost q, dm_rep m fm lost ->
  cends (fun n => a_hm_remove_mut ubits dbg borrow qeq qhash fuel n m q)
    (fun '(m', x) => x = is_some (fm_find borrow qeq q fm) /\ dm_rep m' (fm_remove borrow qeq q fm) lost /\
       (x = false -> fm_remove borrow qeq q fm = fm))
    (mcut (qhash q) fm lost) (mown q fm lost).
Proof.
  intros m fm lost q H. pose proof H as (es & Hr & Hho & Hp & Hu & Hs & Hd). unfold a_hm_remove_mut.
  apply cends_call; [now apply mcut_refl|]. rewrite Hd.
  set (mt := @matches K V Q borrow qeq q (qhash q)).
  assert (Hmq : forall e, In e es -> mt e = is_key q (kv e)).
  { intros e He. now apply (matches_q ubits dbg b Hb Hdeg Hub keq borrow qeq hash qhash KL HL fuel Hfuel es). }
  set (es' := filter (fun e => negb (mt e)) es).
  assert (Hp' : Permutation (map kv es') (fm_remove borrow qeq q fm)).
  { unfold es', fm_remove. rewrite (filter_ext_in _ (fun e => negb (qeq (borrow (fst (kv e))) q))).
    - rewrite <- (filter_map _ _ kv (fun x => negb (qeq (borrow (fst x)) q))). now apply Permutation_filter.
    - intros e He. f_equal. now apply Hmq. }
  assert (Hu' : unique_keys keq (fm_remove borrow qeq q fm)) by now apply FOP_filter.
  assert (Hho' : hash_ok hash es') by (intros e He; apply filter_In in He as [He _]; auto).
  assert (Hlen : length (fm_remove borrow qeq q fm) = (length fm - (if is_some (fm_find borrow qeq q fm) then 1 else 0))%nat).
  { apply (filter_len_uniq (fun x => qeq (borrow (fst x)) q)). now apply (unique_uniq keq borrow qeq KL). }
  pose proof (HashHist.rep_find ubits dbg b Hb Hdeg Hub keq borrow qeq hash qhash KL HL fuel Hfuel es fm q Hho Hp Hu) as Hfind.
  assert (Hpos : is_some (fm_find borrow qeq q fm) = true -> (1 <= length fm)%nat).
  { unfold fm_find. destruct fm; [discriminate|]. simpl. lia. }
  eapply cends_bind; [apply (a_hn_remove_ok ubits dbg b Hb Hdeg Hub borrow qeq q (qhash q) (hits lost)
     (hl_range _ _ _ _ HL q) fuel (D b) 0 0 _ es Hr)| | |].
  - lia.
  - lia.
  - apply p0.
  - apply on_path_0.
  - now apply es_range.
  - now apply (rep_uniq_q ubits dbg b Hb Hdeg Hub keq borrow qeq hash qhash KL HL fuel Hfuel es fm).
  - intros n' Hc. now apply (cutpost_mcut _ m fm lost es n').
  - intros n' (Hhit & Hr' & Honly). fold mt es' in Hr', Honly. split; [exact Hhit|]. split.
    + intros x Hx Ex. apply (Permutation_in _ (Permutation_sym Hp)) in Hx. apply in_map_iff in Hx as (e & <- & He).
      rewrite <- Hmq by exact He. apply Honly; [exact He|]. rewrite (Hho e He). exact Ex.
    + exists es'. cbn [hm_with hm_root hm_size hm_degree]. split; [|split; [exact Hho'|split; [exact Hp'|split; [exact Hu'|split; [|exact Hd]]]]].
      * eapply drep_mono; [|exact Hr']. intros x (y & Hy & E). exists y. split; [apply in_app_iff; now right|exact E].
      * rewrite Hs, app_length. unfold fm_remove, is_key.
        pose proof (split_len _ (fun x : K * V => qeq (borrow (fst x)) q) fm) as Hfl. cbv beta in Hfl. lia.
  - fold mt es'. intros (n' & x) (-> & Hcase & _).
    assert (Hr' : @drep ubits b K V (hits lost) (D b) 0 0 n' es').
    { destruct Hcase as [Hr'|(-> & _ & ->)]; [exact Hr'|]. pose proof (D_pos ubits dbg b Hb Hdeg Hub) as HD.
      destruct (D b) as [|r]; [lia|]. now apply (drep_empty ubits dbg b Hb Hdeg Hub). }
    fold mt in Hfind.
    assert (Ho : is_some (find mt es) = is_some (fm_find borrow qeq q fm)) by (rewrite <- Hfind; now rewrite is_some_map).
    rewrite Ho. destruct (is_some (fm_find borrow qeq q fm)) eqn:Eis.
    + specialize (Hpos eq_refl). rewrite csub_ok by lia. cbn [bind]. apply cends_ret. split; [reflexivity|]. split; [|discriminate].
      exists es'. cbn [hm_root hm_size hm_degree]. repeat split; auto. lia.
    + apply cends_ret. split; [reflexivity|]. split.
      * exists es'. cbn [hm_root hm_size hm_degree]. repeat split; auto. lia.
      * intros _. unfold fm_remove. apply (nomatch_filter (fun x => qeq (borrow (fst x)) q)). apply HashProofs.find_none.
        unfold fm_find in Eis. destruct (find _ fm); [discriminate|reflexivity].
Qed.

(** The entries iteration delivers. *)
Lemma dchl_entries : forall (R : N -> node -> list entry -> Prop) dig al es, (forall i n es, R i n es -> es = n_entries n /\ lists_ok n) ->
  dchl R dig al es -> es = concat (map n_entries (map snd al)) /\ Forall lists_ok (map snd al).
Proof using.
  intros R dig al es HR H. induction H as [|i c ec al rest Hr Hd Hrest IH]; [|destruct IH as (IH1 & IH2)]; cbn [map snd concat]; [split; [reflexivity|constructor]|].
  destruct (HR _ _ _ Hr) as (H1 & H2). split; [congruence|now constructor].
Qed.
Lemma drep_entries : forall hit r d p (n : node) es, @drep ubits b K V hit r d p n es -> es = n_entries n /\ lists_ok n.
Proof using.
  intros hit. induction r as [|r IH]; intros d p n es H; destruct n as [s|[e|l]]; cbn [drep n_entries] in *.
  - destruct H.
  - split; [exact H|exact I].
  - destruct H as (_ & Hl & _). split; [symmetry; apply Hl|]. now exists es.
  - destruct H as (al & (E1 & E2 & _) & Hc). apply dchl_entries in Hc as (H1 & H2); [|intros i n es0; apply IH].
    rewrite E2. split; [exact H1|]. apply lists_branch. now rewrite E2.
  - split; [exact H|exact I].
  - destruct H as (H & _). discriminate.
Qed.
Lemma dm_iter : forall m fm lost, dm_rep m fm lost -> exists l, hm_entries m = Ok l /\ Permutation l fm.
Proof.
  intros m fm lost (es & Hr & Hho & Hp & Hu & Hs & Hd). destruct (drep_entries _ _ _ _ _ _ Hr) as (He & Hl).
  exists (map kv (n_entries (hm_root m))). rewrite <- He. split; [|exact Hp]. rewrite He. apply hm_entries_stale; [exact Hl|].
  rewrite <- He. apply Permutation_length in Hp. rewrite map_length in Hp. lia.
Qed.
Lemma dm_new : exists m0, @hm_new_with_degree ubits K V degree = Ok m0 /\ dm_rep m0 [] [].
Proof.
  destruct (hm_new_ok (strict:=false) (V:=V) ubits dbg b Hb Hdeg Hub keq borrow qeq hash qhash KL HL fuel Hfuel) as (m0 & E0 & (es & Hr & Hho & Hp & Hu & Hs & Hd)).
  exists m0. split; [exact E0|]. apply Permutation_sym, Permutation_nil in Hp.
  assert (es = []) by (now destruct es). subst es. exists []. split; [|repeat split; auto].
  destruct (root_empty ubits dbg b Hb Hdeg Hub keq borrow qeq hash qhash KL HL fuel Hfuel _ _ Hr) as [X|E]; [now destruct X|]. rewrite E.
  pose proof (D_pos ubits dbg b Hb Hdeg Hub) as HD. destruct (D b) as [|r]; [lia|]. now apply (drep_empty ubits dbg b Hb Hdeg Hub).
Qed.

Lemma dm_perm : forall m fm fm' lost lost', Permutation fm fm' -> Permutation lost lost' -> dm_rep m fm lost -> dm_rep m fm' lost'.
Proof.
  intros m fm fm' lost lost' Hf Hl (es & Hr & Hho & Hp & Hu & Hs & Hd). exists es. split; [|split; [exact Hho|split; [|split; [|split; [|exact Hd]]]]].
  - eapply drep_mono; [|exact Hr]. intros x (y & Hy & E). exists y. split; [now apply (Permutation_in _ Hl)|exact E].
  - now rewrite Hp.
  - now apply (unique_perm keq borrow qeq KL fm).
  - rewrite <- (Permutation_length Hf), <- (Permutation_length Hl). exact Hs.
Qed.

(** The answer of a call on a map that counts [k] entries it no longer has. *)
Definition dm_obs (o : map_op K V Q) (fm : fmap K V) (k : nat) : map_obs K V :=
  match o with
  | MSize => MoNat (length fm + k)
  | MIsEmpty => MoBool (length fm + k =? 0)%nat
  | _ => snd (map_spec keq borrow qeq o fm)
  end.

Lemma a_step_ok : forall shared o m fm lost, dm_rep m fm lost ->
  cends (fun n => a_hm_step ubits dbg keq borrow qeq hash qhash fuel n shared o m)
    (fun '(m', a) => a = dm_obs o fm (length lost) /\ dm_rep m' (fst (map_spec keq borrow qeq o fm)) lost)
    (fun m' => match op_hash hash qhash o with None => m' = m | Some h => mcut h fm lost m' end)
    (fun m' => exists q m1, mown q fm lost m1 /\ (o = MRemove q /\ m' = m \/ o = MRemoveMut q /\ m' = m1)).
Proof.
  intros shared o m fm lost H. destruct o; cbn [a_hm_step c_hm_step op_hash map_spec fst dm_obs snd].
  - eapply cends_bind; [now apply (a_insert_ok m fm lost k v)|reflexivity|intros ? []|]. intros m' Hm. now apply cends_ret.
  - eapply cends_bind; [now apply (a_insert_ok m fm lost k v)|auto|intros ? []|]. intros m' Hm. now apply cends_ret.
  - eapply cends_bind; [now apply (a_remove_ok m fm lost q)|reflexivity| |].
    + intros m1 Hm. exists q, m1. auto.
    + intros (m' & x) (Ex & Hm & Hf). apply cends_ret. split; [reflexivity|]. destruct x; [exact Hm|]. rewrite (Hf eq_refl). exact H.
  - eapply cends_bind; [now apply (a_remove_ok m fm lost q)|auto| |].
    + intros m1 Hm. exists q, m1. auto.
    + intros (m' & x) (-> & Hm & Hf). apply cends_ret. auto.
  - eapply cends_bind; [now apply (a_get_mut_ok shared m fm lost q f)|auto|intros ? []|].
    intros (m' & x) (-> & Hm). apply cends_ret. auto.
  - eapply cends_bind; [now apply (a_find_ok m fm lost q)|auto|intros ? []|]. intros o <-. apply cends_ret. split; [now destruct o|exact H].
  - eapply cends_bind; [now apply (a_find_ok m fm lost q)|auto|intros ? []|]. intros o <-. apply cends_ret. split; [now destruct o|exact H].
  - eapply cends_bind; [now apply (a_find_ok m fm lost q)|auto|intros ? []|]. intros o <-. apply cends_ret. split; [now destruct o|exact H].
  - apply cends_ret. split; [|exact H]. f_equal. unfold hm_len. destruct H as (es & _ & _ & _ & _ & E & _). exact E.
  - apply cends_ret. split; [|exact H]. f_equal. unfold hm_is_empty, hm_len. destruct H as (es & _ & _ & _ & _ & -> & _). reflexivity.
  - apply cends_ret. auto.
Qed.
End MA.
Unset Default Proof Using.
