(** * The heap programs of the hash trie, node by node

    Each lemma has the form: when the function of HashModel.v succeeds, its heap
    program, run on cells that stand for the node, never fails, stays within its
    allocation budget, and leaves cells that stand for the result. *)
From Coq Require Import List NArith Arith Lia Bool Permutation.
From Verif Require Import Base Spec SpecMap Sim ListModel ListProofs SparseModel SparseProofs HashModel HashProofs
  PermSolve HeapModel HeapProofs HeapSafe HeapClient HeapList HeapListProofs HeapVec HeapVecProofs HeapHash HeapHashProofs.
Import ListNotations.
Local Open Scope prog_scope.

Ltac inv H x E := apply lift_inv in H; destruct H as (x & E & H).

Section Nodes.
Variable ubits : N.
Variable dbg : bool.
Context {K V : Type}.
Notation C := (tcell K V).
Notation own := (@own C).
Notation ptree := (@ptree C).
Notation safe := (safe (@tkids K V)).
Notation entry := (hentry K V).
Notation node := (hnode K V).
Notation trep L s G := (lrep (T := entry) TLN TLE terep L s (last_error s) G).
Notation tchain := (chain (T := entry) TLN TLE terep).

(** ** Sparse arrays of nodes and of pointers *)
Definition sim (s : sarr node) (s' : sarr addr) (ts : list ptree) : Prop :=
  sa_bitmap s' = sa_bitmap s /\ sa_array s' = map pa ts /\ Forall2 ntree (sa_array s) ts.

Lemma sim_cont : forall s s' ts, sim s s' ts -> ncont (HBranch s) (TB s') ts.
Proof. intros s s' ts (E1 & E2 & F). now constructor. Qed.

Lemma sim_new : sim sa_new sa_new [].
Proof. repeat split. constructor. Qed.

Lemma map_at_split : forall {X} (x : X) i l1 y l2, length l1 = i -> map_at (fun _ => x) i (l1 ++ y :: l2) = l1 ++ x :: l2.
Proof. intros X x i l1 y l2 <-. induction l1 as [|z l1 IH]; cbn; [trivial|]. now rewrite IH. Qed.
Lemma vec_remove_split : forall {X} i l1 (y : X) l2, length l1 = i -> vec_remove i (l1 ++ y :: l2) = Ok (l1 ++ l2).
Proof. intros X i l1 y l2 <-. induction l1 as [|z l1 IH]; cbn; [trivial|]. now rewrite IH. Qed.
Lemma vec_insert_split : forall {X} i l1 (y : X) l2, length l1 = i -> vec_insert i y (l1 ++ l2) = Ok (l1 ++ y :: l2).
Proof. intros X i l1 y l2 <-. induction l1 as [|z l1 IH]; cbn; [now destruct l2|]. now rewrite IH. Qed.
Lemma nth_split : forall {X} i l1 (y : X) l2, length l1 = i -> nth_error (l1 ++ y :: l2) i = Some y.
Proof. intros X i l1 y l2 <-. apply nth_app_len. Qed.

Lemma nth_split2 : forall {X Y} (R : X -> Y -> Prop) l m i x, Forall2 R l m -> nth_error l i = Some x ->
  exists l1 l2 m1 y m2, l = l1 ++ x :: l2 /\ m = m1 ++ y :: m2 /\ length l1 = i /\ length m1 = i /\
    Forall2 R l1 m1 /\ R x y /\ Forall2 R l2 m2.
Proof.
  intros X Y R l m i x F. revert i. induction F as [|a b l m H F IH]; intros [|i] E; try discriminate.
  - cbn in E. injection E as ->. exists [], l, [], b, m. splits; trivial.
  - cbn in E. destruct (IH i E) as (l1 & l2 & m1 & y & m2 & -> & -> & L1 & L2 & F1 & H' & F2).
    exists (a :: l1), l2, (b :: m1), y, m2. cbn. splits; trivial; try lia. now constructor.
Qed.

Lemma vec_insert_inv : forall {X} (x : X) i l l', vec_insert i x l = Ok l' ->
  exists l1 l2, l = l1 ++ l2 /\ length l1 = i /\ l' = l1 ++ x :: l2.
Proof.
  intros X x. induction i as [|i IH]; intros l l' H; cbn in H.
  - exists [], l. assert (l' = x :: l) by (destruct l; congruence). auto.
  - destruct l as [|y l]; [discriminate|]. apply lift_inv in H. destruct H as (r & E & H).
    destruct (IH _ _ E) as (l1 & l2 & -> & L & ->). injection H as <-. exists (y :: l1), l2. cbn. auto.
Qed.

Lemma split2 : forall {X Y} (R : X -> Y -> Prop) l1 l2 m, Forall2 R (l1 ++ l2) m ->
  exists m1 m2, m = m1 ++ m2 /\ length m1 = length l1 /\ Forall2 R l1 m1 /\ Forall2 R l2 m2.
Proof.
  intros X Y R l1 l2 m F. apply Forall2_app_inv_l in F. destruct F as (m1 & m2 & F1 & F2 & ->).
  exists m1, m2. splits; trivial. clear -F1. induction F1; cbn; lia.
Qed.

Lemma sim_get : forall s s' ts i o, sim s s' ts -> sa_get ubits dbg s i = Ok o ->
  match o with
  | None => sa_get ubits dbg s' i = Ok None
  | Some n => exists t, In t ts /\ ntree n t /\ sa_get ubits dbg s' i = Ok (Some (pa t))
  end.
Proof.
  intros s s' ts i o (E1 & E2 & F) H. unfold sa_get in *. rewrite E1, E2.
  apply lift_inv in H. destruct H as ([] & -> & H). cbn [bind] in *.
  apply lift_inv in H. destruct H as ([j|] & -> & H); cbn [bind] in *.
  - apply lift_inv in H. destruct H as (x & E & H). injection H as <-.
    destruct (nth_error (sa_array s) j) as [y|] eqn:Ej; [|discriminate]. injection E as ->.
    destruct (nth_split2 _ _ _ _ _ F Ej) as (l1 & l2 & m1 & t & m2 & El & -> & L1 & L2 & F1 & Ht & F2).
    exists t. split; [apply in_elt|]. split; trivial.
    rewrite map_app. cbn [map]. rewrite (nth_split j) by (now rewrite map_length). reflexivity.
  - now injection H as <-.
Qed.

Lemma sim_get_mut : forall s s' ts i o, sim s s' ts -> sa_get_mut ubits dbg s i = Ok o ->
  match o with
  | None => sa_get_mut ubits dbg s' i = Ok None
  | Some (n, w) => sa_get ubits dbg s i = Ok (Some n) /\
      exists ts1 t ts2 w', ts = ts1 ++ t :: ts2 /\ ntree n t /\
      sa_get_mut ubits dbg s' i = Ok (Some (pa t, w')) /\
      (forall n' t', ntree n' t' -> sim (w n') (w' (pa t')) (ts1 ++ t' :: ts2)) /\
      (forall n' p' s2, sa_remove ubits dbg (w n') i = Ok s2 ->
         exists s2', sa_remove ubits dbg (w' p') i = Ok s2' /\ sim s2 s2' (ts1 ++ ts2)) /\
      (forall n', exists l1 l2, sa_array s = l1 ++ n :: l2 /\ sa_array (w n') = l1 ++ n' :: l2)
  end.
Proof.
  intros s s' ts i o (E1 & E2 & F) H. unfold sa_get_mut, sa_get in *. rewrite E1, E2.
  apply lift_inv in H. destruct H as ([] & -> & H). cbn [bind] in *.
  apply lift_inv in H. destruct H as ([j|] & Ej & H); cbn [bind] in *; rewrite Ej; cbn [bind].
  - apply lift_inv in H. destruct H as (x & E & H). injection H as <-.
    destruct (nth_error (sa_array s) j) as [y|] eqn:En; [|discriminate]. injection E as ->. split; [reflexivity|].
    destruct (nth_split2 _ _ _ _ _ F En) as (l1 & l2 & m1 & t & m2 & El & -> & L1 & L2 & F1 & Ht & F2).
    exists m1, t, m2. eexists. split; [reflexivity|]. split; [exact Ht|]. split; [|split; [|split]].
    + rewrite map_app. cbn [map]. rewrite (nth_split j) by (now rewrite map_length). reflexivity.
    + intros n' t' Ht'. cbv beta.
      rewrite (map_at_split (pa t')) by (now rewrite map_length).
      rewrite El, (map_at_split n') by trivial. repeat split; cbn [sa_array sa_bitmap].
      * rewrite map_app. reflexivity.
      * apply Forall2_app; trivial. now constructor.
    + intros n' p' s2. unfold sa_remove. cbv beta. cbn [sa_bitmap sa_array].
      rewrite Ej. cbn [bind]. intros Hr.
      apply lift_inv in Hr. destruct Hr as (one & -> & Hr). apply lift_inv in Hr. destruct Hr as (a & Er & Hr).
      injection Hr as <-. cbn [bind]. rewrite El, (map_at_split n'), vec_remove_split in Er by trivial. injection Er as <-.
      rewrite (map_at_split p'), vec_remove_split by (now rewrite map_length). cbn [bind].
      eexists. split; [reflexivity|]. repeat split; cbn [sa_array sa_bitmap].
      * now rewrite map_app.
      * now apply Forall2_app.
    + intros n'. exists l1, l2. split; [trivial|]. cbn [sa_array]. rewrite El. now apply map_at_split.
  - now injection H as <-.
Qed.

Lemma sim_set_none : forall s s' ts i n s2, sim s s' ts -> sa_get_mut ubits dbg s i = Ok None ->
  sa_set ubits dbg s i n = Ok s2 ->
  exists ts1 ts2, ts = ts1 ++ ts2 /\ forall t, ntree n t ->
    exists s2', sa_set ubits dbg s' i (pa t) = Ok s2' /\ sim s2 s2' (ts1 ++ t :: ts2).
Proof.
  intros s s' ts i n s2 (E1 & E2 & F) Hg H. unfold sa_get_mut in Hg. unfold sa_set in *. rewrite E1, E2.
  apply lift_inv in H. destruct H as ([] & Ea & H). rewrite Ea in *. cbn [bind] in *.
  apply lift_inv in H. destruct H as ([j|] & Ej & H); rewrite Ej in *; cbn [bind] in *.
  { destruct (nth_error (sa_array s) j); discriminate. }
  apply lift_inv in H. destruct H as (j & -> & H). cbn [bind].
  apply lift_inv in H. destruct H as (one & -> & H). cbn [bind].
  apply lift_inv in H. destruct H as (a & Ei & H). injection H as <-.
  destruct (vec_insert_inv _ _ _ _ Ei) as (l1 & l2 & El & L1 & ->). rewrite El in F.
  destruct (split2 _ _ _ _ F) as (m1 & m2 & -> & L2 & F1 & F2).
  exists m1, m2. split; [trivial|]. intros t Ht.
  rewrite map_app, (vec_insert_split j) by (rewrite map_length; congruence). cbn [bind].
  eexists. split; [reflexivity|]. repeat split; cbn [sa_array sa_bitmap].
  - rewrite map_app. reflexivity.
  - apply Forall2_app; trivial. now constructor.
Qed.

(** ** Buckets *)
Lemma trep_lent : forall L s ts (G : list own), trep L s (map Tree ts) -> (forall t, In t ts -> lent t G) ->
  exists us, tchain s us /\ (forall t, In t us -> lent t G) /\ hl_head L = hd_error (map pa us) /\ hl_len L = length s.
Proof.
  intros L s ts G R H. destruct (trep_inv _ _ _ R) as (us & tl & -> & Ch & Lt & ->).
  exists us. splits; trivial. intros t I. apply H. apply in_app_iff. now left.
Qed.

Lemma chain_cons_lent : forall x s us (G : list own), tchain (x :: s) us -> (forall t, In t us -> lent t G) ->
  exists a v e us', hd_error (map pa us) = Some a /\ snd e = e_hash x /\ tchain s us' /\
    lent (PT a (TLN v (hd_error (map pa us'))) (PT v (TLE e) [et e x] :: us')) G /\
    lent (PT v (TLE e) [et e x]) G /\ lent (et e x) G /\ (forall t, In t us' -> lent t G).
Proof.
  intros x s us G Ch H. inversion Ch as [|x' s' t us' a Et Ch']; subst. destruct Et as [v e ts (-> & E)].
  assert (Ln : lent (PT a (TLN v (hd_error (map pa us'))) (PT v (TLE e) [et e x] :: us')) G) by (apply H; now left).
  assert (Lv : lent (PT v (TLE e) [et e x]) G) by (eapply lent_kid; [exact Ln|now left]).
  exists a, v, e, us'. splits; trivial.
  - eapply lent_kid; [exact Lv|now left].
  - intros t I. eapply lent_kid; [exact Ln|now right].
Qed.

(** What a reading program delivers. *)
Definition found (G : list own) (o : option entry) (r : option hewh) : Prop :=
  match o with
  | None => r = None
  | Some x => exists e, r = Some e /\ snd e = e_hash x /\ lent (et e x) G
  end.

Lemma tests_seq : forall A p m e x (k : bool -> prog C A) n G Q, tests p m -> snd e = e_hash x -> lent (et e x) G ->
  safe n (k (m x)) G Q -> safe n (let* b := p e in k b) G Q.
Proof.
  intros A p m e x k n G Q T E L S.
  seqq 0 n G (@nil own) (fun b G' => b = m x /\ G' = G).
  - exact (T e x G E L).
  - intros b G' (-> & ->). now rewrite app_nil_r.
Qed.

Lemma tfind_loop_ok : forall p m, tests p m -> forall s us (G : list own) rem, tchain s us ->
  (forall t, In t us -> lent t G) -> length s <= rem ->
  safe 0 (tfind_loop p rem (hd_error (map pa us))) G (fun r G' => G' = G /\ found G (find m s) r).
Proof.
  intros p m Hp. induction s as [|x s IH]; intros us G rem Ch H L.
  - inversion Ch; subst. cbn [map hd_error]. destruct rem; cbn [tfind_loop]; now apply safe_ret.
  - destruct (chain_cons_lent x s us G Ch H) as (a & v & e & us' & -> & E & Ch' & Ln & Lv & Le & H').
    cbn [length] in L. destruct rem as [|rem]; [lia|]. cbn [tfind_loop].
    eexists _, _. split; [exact Ln|]. intros _. cbn [t_isN].
    eexists _, _. split; [exact Lv|]. intros _. cbn [t_isE].
    apply (tests_seq _ p m e x); trivial. cbn [find]. destruct (m x).
    + apply safe_ret. split; trivial. exists e. auto.
    + apply IH; trivial. lia.
Qed.

Lemma tb_find_ok : forall p m, tests p m -> forall bk c ts (G : list own) o, ncont (HLeaf bk) c ts ->
  (forall t, In t ts -> lent t G) -> b_find m bk = Ok o ->
  safe 0 (tb_find p c) G (fun r G' => G' = G /\ found G o r).
Proof.
  intros p m Hp bk c ts G o Hc H E. inversion Hc as [|e x Ex|L l s ts' R1 R2]; subst; cbn [tb_find b_find] in *.
  - injection E as <-. assert (Le : lent (et e x) G) by (apply H; now left).
    apply (tests_seq _ p m e x); trivial. destruct (m x); apply safe_ret; (split; [reflexivity|]).
    + exists e. auto.
    + reflexivity.
  - rewrite (l_elems_ok l s R1) in E. injection E as <-.
    destruct (trep_lent _ _ _ G R2 H) as (us & Ch & Lu & -> & ->). now apply tfind_loop_ok.
Qed.

Lemma hl_len_rep : forall L s G, trep L s G -> hl_len L = length s.
Proof. intros L s G (? & ? & ? & ? & ? & ->). reflexivity. Qed.

Lemma trep_new : trep hl_new [] [].
Proof. apply (lrep_new TLN TLE terep). Qed.

Lemma drop_removed_ok : forall o x e, o = Some e -> safe 0 (drop_removed o) [Tree (et e x)] (fun _ G => G = []).
Proof. intros o x e ->. cbn [drop_removed]. apply et_drop. Qed.

(** Entries in a bucket; a list has at least two. *)
Definition bcap (bk : hbucket K V) (cap : nat) : Prop :=
  match bk with BSingle _ => 1 <= cap | BCollision l => 2 <= l_len l <= cap end.

(** The bucket at the end of the path of [h] has at most [cap] entries. *)
Fixpoint pcap (degree : N) (r d : nat) (h : N) (n : node) (cap : nat) : Prop :=
  match n with
  | HLeaf bk => bcap bk cap
  | HBranch s =>
      match r with
      | 0 => True
      | S r' => forall i c, index_from_hash dbg h d degree = Ok (Some i) ->
          sa_get ubits dbg s i = Ok (Some c) -> pcap degree r' (S d) h c cap
      end
  end.

Definition leaves {X} (f : X) (n : node) (r : C * X) (G : list own) : Prop :=
  exists c ts, r = (c, f) /\ ncont n c ts /\ G = map Tree ts.

Lemma trep_trees : forall L s G, trep L s G -> exists ts, G = map Tree ts.
Proof. intros L s G (us & tl & -> & _). eauto. Qed.

Lemma leaves_coll : forall {X} (f : X) L l s G, l_rep l s -> trep L s G -> leaves f (HLeaf (BCollision l)) (TC L, f) G.
Proof.
  intros X f L l s G R1 R2. destruct (trep_trees _ _ _ R2) as (ts & ->). exists (TC L), ts. splits; trivial.
  now apply nc_coll with (s := s).
Qed.

Section Insert.
Variable keq : K -> K -> bool.
Notation mk e := (matches_key (V := V) keq (e_key e) (e_hash e)).

Lemma tests_key : forall (e : entry) (a : hewh), snd a = e_hash e -> tests (tmatches (fun k' => keq k' (e_key e)) (snd a)) (mk e).
Proof. intros e a ->. exact (tmatches_ok (fun k' => keq k' (e_key e)) (e_hash e)). Qed.

Lemma tb_insert_ok : forall p e, tests p (mk e) -> forall bk c ts bk' f a cap, ncont (HLeaf bk) c ts ->
  b_insert keq e bk = Ok (bk', f) -> snd a = e_hash e -> bcap bk cap ->
  safe (2 * cap + 2) (tb_insert p a c) (Tree (et a e) :: map Tree ts) (leaves f (HLeaf bk')).
Proof.
  intros p e Hp bk c ts bk' f a cap Hc E Ea Hcap.
  inversion Hc as [|o x Ex|L l s ts' R1 R2]; subst; cbn [tb_insert b_insert bcap] in *.
  - apply (tests_seq _ p (mk e) o x); trivial; [apply lent_in; right; now left|].
    destruct (mk e x).
    + injection E as <- <-. seqq 0 0 [Tree (et o x)] [Tree (et a e)] (fun (_ : unit) (G : list own) => G = []); [apply et_drop|].
      intros [] G ->. apply safe_ret. exists (TS a), [et a e]. splits; trivial. now constructor.
    + injection E as <- <-.
      eexists _, _. split; [apply lent_in; right; now left|]. fold (et o x).
      seqq 2 2 [Tree (et o x)] [Tree (et a e); Tree (et o x)] (fun L' G' => trep L' [x] G').
      { apply (tl_push_ok hl_new [] [] o x); trivial. apply trep_new. }
      intros L1 G1 R1.
      seqq 2 0 (Tree (et a e) :: G1) [Tree (et o x)] (fun L' G' => trep L' [e; x] G').
      { apply (tl_push_ok L1 [x] G1 a e); trivial. }
      intros L2 G2 R2.
      seqq 0 0 [Tree (et o x)] G2 (fun (_ : unit) (G : list own) => G = []); [apply et_drop|].
      intros [] G ->. apply safe_ret. cbn [app].
      apply leaves_coll with (s := [e; x]); trivial. apply l_rep_push. apply l_rep_push. apply l_rep_new.
  - destruct (lrf_value (mk e) l s R1) as (l' & El & Rl). rewrite El in E. cbn [bind] in E. injection E as <- <-.
    assert (Els : l_len l = length s) by apply R1.
    seqq (2 * length s) 2 (map (@Tree C) ts) [Tree (et a e)]
      (fun r G' => exists G1, trep (fst r) (rf (mk e) s) G1 /\
       match find (mk e) s with
       | None => snd r = None /\ G' = G1
       | Some x => exists e, snd r = Some e /\ snd e = e_hash x /\ G' = Tree (et e x) :: G1
       end).
    { now apply tlist_remove_first_ok. }
    intros [L' rm] G' (G1 & RL & Hf). cbn [fst snd] in RL, Hf.
    seqq 0 2 G' [Tree (et a e)] (fun (_ : unit) G => G = G1 /\ is_some rm = is_some (find (mk e) s)).
    { destruct (find (mk e) s) as [x|].
      - destruct Hf as (o & -> & Eo & ->).
        apply (safe_frame tkids _ 0 0 _ [Tree (et o x)] G1 (fun _ G => G = [])); [apply et_drop|perm| |lia].
        intros [] G2 ->. exists G1. cbn [app is_some]. auto.
      - destruct Hf as (-> & ->). apply safe_ret. auto. }
    intros [] G2 (-> & <-).
    seqq 2 0 (Tree (et a e) :: G1) (@nil own) (fun L2 G' => trep L2 (e :: rf (mk e) s) G').
    { now apply tl_push_ok. }
    intros L2 G3 R3. rewrite app_nil_r. apply safe_ret.
    apply leaves_coll with (s := e :: rf (mk e) s); trivial. now apply l_rep_push.
Qed.

Variable b : N.
Hypothesis Hb : (0 < b)%N.
Hypothesis Hdeg : (2 ^ b <= ubits)%N.
Hypothesis Hub : (ubits <= 64)%N.
Notation degree := (2 ^ b)%N.

Notation pcp := (pcap degree).

Notation hins := (hn_insert ubits dbg keq).
Notation tins := (tn_insert ubits dbg keq).

Lemma ins_empty : forall fuel d o a n1 f, hins (S fuel) o new_empty_branch d degree = Ok (n1, f) -> snd a = e_hash o ->
  safe 1 (tins (S fuel) (e_key o) a (TB sa_new) d degree) [Tree (et a o)] (leaves f n1) /\
  exists s1, n1 = HBranch s1 /\ sa_array s1 = [HLeaf (BSingle o)].
Proof.
  intros fuel d o a n1 f H Ea. unfold new_empty_branch in H. cbn [hn_insert tn_insert] in *. rewrite Ea.
  inv H oi Ei. rewrite Ei. inv H i Eu. cbn [lift pbind]. rewrite Eu. cbn [lift pbind].
  inv H g Eg. pose proof (sim_get_mut _ _ _ _ _ sim_new Eg) as Sg.
  destruct g as [[n w]|].
  { exfalso. destruct Sg as (Hg & ts1 & t & ts2 & w' & E & _). destruct ts1; discriminate. }
  rewrite Sg. cbn [lift pbind]. inv H s2 Es. injection H as <- <-.
  destruct (sim_set_none _ _ _ _ _ _ sim_new Eg Es) as (ts1 & ts2 & E & Hset).
  destruct ts1; [|discriminate]. destruct ts2; [|discriminate]. cbn [app] in Hset. split.
  - exists 0, [et a o], []. splits; trivial. intros p.
    destruct (Hset (PT p (TS a) [et a o])) as (s2' & E2 & S2); [now repeat constructor|].
    cbn [pa] in E2. rewrite E2. cbn [lift pbind]. apply safe_ret.
    exists (TB s2'), [PT p (TS a) [et a o]]. splits; trivial. now apply sim_cont.
  - exists s2. split; trivial. destruct (Hset (PT 0 (TS a) [et a o])) as (s2' & E2 & (_ & _ & F)); [now repeat constructor|].
    inversion F as [|n t l m Hn F' E3]; subst. inversion F'; subst. unfold sa_set in Es.
    inv Es x1 Y1. inv Es x2 Y2. destruct x2; cbn [sa_array sa_new] in Es.
    + inv Es x3 Y3. destruct n0; discriminate.
    + inv Es x3 Y3. inv Es x4 Y4. inv Es x5 Y5. injection Es as <-. cbn [sa_array].
      destruct x3; cbn in Y5; [now injection Y5 as <-|discriminate].
Qed.

Lemma ins_branch_ok : forall r d s s' ts e a fuel n' f cap nb,
  (forall c0 cc tts n0 f0, tall r c0 -> pcp r (S d) (e_hash e) c0 cap ->
     hins fuel e c0 (S d) degree = Ok (n0, f0) -> ncont c0 cc tts ->
     safe nb (tins fuel (e_key e) a cc (S d) degree) (Tree (et a e) :: map Tree tts) (leaves f0 n0)) ->
  tall (S r) (HBranch s) -> pcp (S r) d (e_hash e) (HBranch s) cap ->
  hins (S fuel) e (HBranch s) d degree = Ok (n', f) -> sim s s' ts -> snd a = e_hash e ->
  safe (1 + nb) (tins (S fuel) (e_key e) a (TB s') d degree) (Tree (et a e) :: map Tree ts) (leaves f n').
Proof.
  intros r d s s' ts e a fuel n' f cap nb IH T P H S Ea. cbn [hn_insert tn_insert tall pcap] in *. rewrite Ea.
  inv H oi Ei. rewrite Ei. inv H i Eu. cbn [lift pbind]. rewrite Eu. cbn [lift pbind].
  assert (oi = Some i) by (destruct oi; cbn in Eu; congruence). subst oi.
  inv H g Eg. pose proof (sim_get_mut _ _ _ _ _ S Eg) as Sg.
  destruct g as [[n w]|].
  - destruct Sg as (Hg & ts1 & t & ts2 & w' & -> & Ht & Eg' & Hw & _ & Harr).
    rewrite Eg'. cbn [lift pbind]. inv H y Ey. destruct y as [c' f']. injection H as <- <-.
    inversion Ht as [n1 p cc tts Hc]; subst. cbn [pa].
    seqq 1 nb [Tree (PT p cc tts)] (Tree (et a e) :: map Tree (ts1 ++ ts2))
      (fun r G => exists a', r = (a', cc) /\ G = Held a' :: map Tree tts).
    { eapply tmake_mut_ok; eauto. }
    intros r0 G' (p' & -> & ->).
    assert (Tn : tall r n).
    { destruct (Harr n) as (l1 & l2 & E1 & _). rewrite E1 in T. rewrite Forall_forall in T. apply T, in_elt. }
    specialize (IH n cc tts c' f' Tn (P _ _ Ei Hg) Ey Hc).
    seqq nb 0 (Tree (et a e) :: map Tree tts) (Held p' :: map Tree (ts1 ++ ts2)) (leaves f' c'); [exact IH|].
    intros r1 G1 (c1 & ts' & -> & Hc' & ->). cbn [pbind].
    exists ts', (map Tree (ts1 ++ ts2)). split; [perm|]. split; [eapply ncont_kids; eauto|].
    exists (map Tree (ts1 ++ PT p' c1 ts' :: ts2)). split; [perm|].
    exists (TB (w' p')), (ts1 ++ PT p' c1 ts' :: ts2). splits; trivial.
    apply sim_cont. apply (Hw c' (PT p' c1 ts')). now constructor.
  - rewrite Sg. cbn [lift pbind]. inv H s2 Es. injection H as <- <-.
    destruct (sim_set_none _ _ _ _ _ _ S Eg Es) as (ts1 & ts2 & -> & Hset).
    exists nb, [et a e], (map Tree (ts1 ++ ts2)). splits; trivial. intros p.
    destruct (Hset (PT p (TS a) [et a e])) as (s2' & E2 & S2); [now repeat constructor|].
    cbn [pa] in E2. rewrite E2. cbn [lift pbind].
    exists (map Tree (ts1 ++ PT p (TS a) [et a e] :: ts2)). split; [perm|].
    exists (TB s2'), (ts1 ++ PT p (TS a) [et a e] :: ts2). splits; trivial. now apply sim_cont.
Qed.

Lemma tn_insert_ok : forall r d n c ts e a n' f cap fuel, tall r n -> d + r = D b ->
  pcp r d (e_hash e) n cap -> 1 <= cap -> hins fuel e n d degree = Ok (n', f) -> ncont n c ts -> snd a = e_hash e ->
  safe (2 * r + 2 * cap + 2) (tins fuel (e_key e) a c d degree) (Tree (et a e) :: map Tree ts) (leaves f n').
Proof.
  induction r as [|r IH]; intros d n c ts e a n' f cap fuel T Hd P Hcap H Hc Ea; (destruct fuel as [|fuel]; [discriminate|]).
  - destruct n as [s|bk]; [destruct T|]. cbn [pcap] in P.
    assert (X : exists bk', b_insert keq e bk = Ok (bk', f) /\ n' = HLeaf bk' /\ exists o, b_find (mk e) bk = Ok o).
    { cbn [hn_insert] in H. rewrite (index_ok ubits dbg b Hb Hdeg Hub) in H by lia.
      destruct (Nat.ltb_spec d (D b)); [lia|]. cbn [bind is_some negb] in H. unfold b_contains_key in H.
      inv H x Ex. inv Ex o Eo. inv H y Ey. destruct y as [bk' f']. injection H as <- <-. eauto. }
    destruct X as (bk' & Eb & -> & o & Eo).
    assert (Sins := fun p Hp => tb_insert_ok p e Hp bk c ts bk' f a cap Hc Eb Ea P).
    assert (Sf := tb_find_ok _ _ (tests_key e a Ea) bk c ts (Tree (et a e) :: map Tree ts) o Hc
      ltac:(intros t I; apply lent_in; right; now apply in_map) Eo).
    assert (Ei : index_from_hash dbg (snd a) d degree = Ok None).
    { rewrite (index_ok ubits dbg b Hb Hdeg Hub) by lia. destruct (Nat.ltb_spec d (D b)); [lia|trivial]. }
    assert (Etr : tins (S fuel) (e_key e) a c d degree =
      (let matching := tmatches (fun k' => keq k' (e_key e)) (snd a) in
       let* found := tb_find matching c in tb_insert matching a c)).
    { inversion Hc; subst; cbn [tn_insert]; rewrite Ei; reflexivity. }
    rewrite Etr. cbv zeta.
    seqq 0 (2 * cap + 2) (Tree (et a e) :: map Tree ts) (@nil own)
      (fun r0 G' => G' = Tree (et a e) :: map Tree ts /\ found (Tree (et a e) :: map Tree ts) o r0); [exact Sf|].
    intros r0 G' (-> & _). rewrite app_nil_r. apply Sins. now apply tests_key.
  - destruct n as [s|bk].
    + inversion Hc as [s0 s' ts' E1 E2 F| |]; subst.
      eapply safe_mono; [| |eapply (ins_branch_ok r d s s' ts e a fuel n' f cap (2 * r + 2 * cap + 2))]; eauto; try lia.
      * intros c0 cc tts n0 f0 T0 P0 H0 C0. apply (IH (S d) c0 cc tts e a n0 f0 cap fuel); trivial. lia.
      * now repeat split.
    + cbn [pcap] in P.
      assert (Ei : forall h, index_from_hash dbg h d degree = Ok (Some (idx b d h))).
      { intros h. rewrite (index_ok ubits dbg b Hb Hdeg Hub) by lia. destruct (Nat.ltb_spec d (D b)); [trivial|lia]. }
      cbn [hn_insert] in H. rewrite Ei in H. cbn [bind is_some negb] in H. unfold b_contains_key in H.
      inv H x Ex. inv Ex o Eo. injection Ex as <-.
      assert (Sf := tb_find_ok _ _ (tests_key e a Ea) bk c ts (Tree (et a e) :: map Tree ts) o Hc
        ltac:(intros t I; apply lent_in; right; now apply in_map) Eo).
      assert (Etr : tins (S fuel) (e_key e) a c d degree =
        (let matching := tmatches (fun k' => keq k' (e_key e)) (snd a) in
         let* found := tb_find matching c in
         if is_some found then tb_insert matching a c
         else match c with
              | TS old =>
                  Clone (fst old)
                    (let* _ := drop_ptr tkids 1 (fst old) in
                     read_entry old (fun kv =>
                       let* (c1, _) := tins fuel (fst kv) old (TB sa_new) d degree in
                       let* (c2, _) := tins fuel (e_key e) a c1 d degree in
                       Ret (c2, true)))
              | _ => Fail
              end)).
      { inversion Hc; subst; cbn [tn_insert]; rewrite Ei; reflexivity. }
      rewrite Etr. cbv zeta. clear Etr.
      seqq 0 (2 * S r + 2 * cap + 2) (Tree (et a e) :: map Tree ts) (@nil own)
        (fun r0 G' => G' = Tree (et a e) :: map Tree ts /\ found (Tree (et a e) :: map Tree ts) o r0); [exact Sf|].
      intros r0 G' (-> & Fo). rewrite app_nil_r.
      assert (Er : is_some r0 = is_some o).
      { destruct o; cbn [found] in Fo; [now destruct Fo as (? & -> & _)|now subst]. }
      rewrite Er. destruct (is_some o).
      * inv H y Ey. destruct y as [bk' f']. injection H as <- <-.
        eapply safe_mono; [| |apply (tb_insert_ok _ e (tests_key e a Ea) bk c ts bk' f' a cap Hc Ey Ea P)]; [lia|trivial].
      * inversion Hc as [|old x Ex|L l s ts' R1 R2]; subst; [|discriminate].
        inv H y Ey. destruct y as [n1 f1]. inv H z Ez. destruct z as [n2 f2]. injection H as <- <-.
        destruct fuel as [|fuel]; [discriminate|].
        destruct (ins_empty fuel d x old n1 f1 Ey Ex) as (S1 & s1 & -> & Ea1).
        eexists _, _. split; [apply lent_in; right; now left|]. fold (et old x).
        seqq 0 (2 * S r + 2 * cap + 2) [Tree (et old x)] [Tree (et a e); Tree (et old x)]
          (fun (_ : unit) (G : list own) => G = []); [apply et_drop|].
        intros [] G ->. cbn [app].
        apply (entry_lent _ old x); [apply lent_in; right; now left|]. cbn [fst].
        seqq 1 (1 + (2 * r + 2 * cap + 2)) [Tree (et old x)] [Tree (et a e)] (leaves f1 (HBranch s1)); [exact S1|].
        intros r1 G1 (c1 & ts1 & -> & Hc1 & ->).
        inversion Hc1 as [s0 s' ts' E1 E2 F| |]; subst.
        seqq (1 + (2 * r + 2 * cap + 2)) 0 (Tree (et a e) :: map Tree ts1) (@nil own) (leaves f2 n2).
        { apply (ins_branch_ok r d s1 s' ts1 e a fuel n2 f2 cap (2 * r + 2 * cap + 2)); trivial.
          - intros c0 cc tts n0 f0 T0 P0 H0 C0. apply (IH (S d) c0 cc tts e a n0 f0 cap fuel); trivial. lia.
          - cbn [tall]. rewrite Ea1. constructor; [destruct r; exact I|constructor].
          - cbn [pcap]. intros i c0 _ Hg. unfold sa_get in Hg. rewrite Ea1 in Hg.
            inv Hg x1 Y1. inv Hg x2 Y2. destruct x2 as [j|]; [|discriminate]. inv Hg x3 Y3. injection Hg as ->.
            destruct j as [|[|j]]; try discriminate. injection Y3 as <-. destruct r; exact Hcap.
          - now repeat split. }
        intros r2 G2 (c2 & ts2 & -> & Hc2 & ->). rewrite app_nil_r. apply safe_ret. exists c2, ts2. auto.
Qed.
End Insert.

Section Lookup.
Context {Q : Type}.
Variable borrow : K -> Q.
Variable qeq : Q -> Q -> bool.
Variable q : Q.
Variable h : N.
Notation m := (@matches K V Q borrow qeq q h).
Notation tm := (tmatches (V := V) (fun k => qeq (borrow k) q) h).

Lemma tests_q : tests tm m.
Proof. exact (tmatches_ok (fun k => qeq (borrow k) q) h). Qed.

Lemma tn_get_ok : forall fuel n c ts (G : list own) d degree o, ncont n c ts -> (forall t, In t ts -> lent t G) ->
  hn_get ubits dbg borrow qeq fuel q h n d degree = Ok o ->
  safe 0 (tn_get ubits dbg borrow qeq fuel q h c d degree) G (fun r G' => G' = G /\ found G o r).
Proof.
  induction fuel as [|fuel IH]; intros n c ts G d degree o Hc HG H; [discriminate|]. destruct n as [s|bk].
  - inversion Hc as [s0 s' ts' E1 E2 F| |]; subst. cbn [hn_get tn_get] in *.
    inv H oi Ei. rewrite Ei. inv H i Eu. cbn [lift pbind]. rewrite Eu. cbn [lift pbind].
    inv H g Eg. assert (S : sim s s' ts) by now repeat split.
    pose proof (sim_get _ _ _ _ _ S Eg) as Sg. destruct g as [n|].
    + destruct Sg as (t & It & Ht & Eg'). rewrite Eg'. cbn [lift pbind].
      inversion Ht as [n1 p cc tts Hc']; subst. cbn [pa].
      assert (Lt := HG _ It). eexists _, _. split; [exact Lt|]. intros _.
      apply (IH n cc tts); trivial. intros u Iu. eapply lent_kid; eauto.
    + rewrite Sg. cbn [lift pbind]. injection H as <-. now apply safe_ret.
  - cbn [hn_get] in H. assert (X := tb_find_ok _ _ tests_q bk c ts G o Hc HG H).
    inversion Hc; subst; exact X.
Qed.

(** ** Mutable lookup *)
Lemma tb_get_mut_ok : forall g bk c ts bk' f cap, ncont (HLeaf bk) c ts ->
  b_get_mut borrow qeq q h g bk = Ok (bk', f) -> bcap bk cap ->
  safe (2 * cap + 5) (tb_get_mut tm g c) (map Tree ts) (leaves f (HLeaf bk')).
Proof.
  intros g bk c ts bk' f cap Hc E Hcap.
  inversion Hc as [|o x Ex|L l s ts' R1 R2]; subst; cbn [tb_get_mut b_get_mut bcap] in *.
  - apply (tests_seq _ tm m o x); trivial; [apply tests_q|apply lent_in; now left|].
    destruct (m x).
    + injection E as <- <-.
      seqq 1 0 [Tree (et o x)] (@nil own)
        (fun r (G : list own) => exists a', r = (a', TE (e_key x, e_val x)) /\ G = [Held a']);
        [exact (safe_make_mut tkids (fst o) (TE (e_key x, e_val x)) [])|].
      intros r G (a' & -> & ->). cbn [app]. exists [], []. splits; trivial.
      apply safe_ret. exists (TS (a', snd o)), [et (a', snd o) (e_write g x)]. splits; trivial. now constructor.
    + injection E as <- <-. apply safe_ret. exists (TS o), [et o x]. splits; trivial.
  - destruct (lrf_value m l s R1) as (l' & El & Rl). rewrite El in E. cbn [bind] in E.
    assert (Els : l_len l = length s) by apply R1.
    seqq (2 * length s) 5 (map (@Tree C) ts) (@nil own)
      (fun r G' => exists G1, trep (fst r) (rf m s) G1 /\
       match find m s with
       | None => snd r = None /\ G' = G1
       | Some x => exists e, snd r = Some e /\ snd e = e_hash x /\ G' = Tree (et e x) :: G1
       end).
    { apply tlist_remove_first_ok; trivial. apply tests_q. }
    intros [L' rm] G' (G1 & RL & Hf). cbn [fst snd] in RL, Hf. rewrite app_nil_r.
    pose proof (rf_length m s) as Hlen.
    destruct (find m s) as [x|] eqn:Ef.
    + destruct Hf as (o & -> & Eo & ->). cbn [is_some] in Hlen.
      pose proof (l_rep_push l' _ x Rl) as Rp. unfold l_push_front_mut in E. rewrite (l_rep_first _ _ Rp) in E.
      cbn [hd_error option_map] in E. injection E as <- <-.
      seqq 2 3 (Tree (et o x) :: G1) (@nil own) (fun L2 G' => trep L2 (x :: rf m s) G').
      { now apply tl_push_ok. }
      intros L2 G2 (us & tl & -> & Ch & Lt & ->). rewrite app_nil_r.
      inversion Ch as [|x' s' t us' a Et Ch']; subst. destruct Et as [v e ts1 (-> & Ee)].
      cbn [hl_head HeapList.hl_last hl_len map hd_error pa app].
      seqq 1 2 [Tree (PT a (TLN v (hd_error (map pa us'))) (PT v (TLE e) [et e x] :: us'))] (map (@Tree C) tl)
        (fun r (G : list own) => exists a', r = (a', @TLN K V v (hd_error (map pa us'))) /\
           G = Held a' :: map (@Tree C) (PT v (TLE e) [et e x] :: us'));
        [exact (safe_make_mut tkids a (TLN v (hd_error (map pa us'))) (PT v (TLE e) [et e x] :: us'))|].
      intros r G (a' & -> & ->). cbn [map].
      seqq 1 1 [Tree (PT v (TLE e) [et e x])] (Held a' :: map (@Tree C) us' ++ map (@Tree C) tl)
        (fun r (G : list own) => exists v', r = (v', @TLE K V e) /\ G = Held v' :: map (@Tree C) [et e x]);
        [exact (safe_make_mut tkids v (TLE e) [et e x])|].
      intros r G (v' & -> & ->). cbn [map].
      seqq 1 0 [Tree (et e x)] (Held v' :: Held a' :: map (@Tree C) us' ++ map (@Tree C) tl)
        (fun r (G : list own) => exists p', r = (p', TE (e_key x, e_val x)) /\ G = [Held p']);
        [exact (safe_make_mut tkids (fst e) (TE (e_key x, e_val x)) [])|].
      intros r G (p' & -> & ->). cbn [app].
      set (x' := e_write g x). set (e' := (p', snd e)).
      exists [], (Held v' :: Held a' :: map Tree us' ++ map Tree tl). splits; [perm|trivial|].
      exists [et e' x'], (Held a' :: map Tree us' ++ map Tree tl). splits; [unfold et, e', x'; cbn; perm|trivial|].
      exists (PT v' (TLE e') [et e' x'] :: us'), (map Tree tl). splits; [cbn [map]; perm| |].
      { cbn [tkids map pa]. f_equal. apply (chain_opt _ _ _ _ _ Ch'). }
      set (nd := PT a' (TLN v' (hd_error (map pa us'))) (PT v' (TLE e') [et e' x'] :: us')).
      exists (map Tree ([nd] ++ tl)). split; [perm|].
      apply leaves_coll with (s := x' :: rf m s).
      * destruct Rl as (P1 & P2 & P3). repeat split; cbn [l_head ListModel.l_last l_length length].
        -- now rewrite P1.
        -- rewrite P2, P3. destruct (rf m s) as [|y fs']; [cbn [length] in Hlen; lia|]. reflexivity.
        -- rewrite P3. lia.
      * exists [nd], tl. splits.
        -- reflexivity.
        -- apply (ch_cons TLN TLE terep x' (rf m s) (PT v' (TLE e') [et e' x']) us' a'); trivial.
           constructor. split; [trivial|exact Ee].
        -- rewrite last_error_cons in *. destruct (rf m s); [cbn [length] in Hlen; lia|].
           destruct Lt as [|z0 q0 Eq0 En]; [discriminate|]. constructor; [trivial|]. inversion Ch'; subst us'.
           inversion En; subst. now constructor.
        -- reflexivity.
    + destruct Hf as (-> & ->). injection E as <- <-. apply safe_ret.
      now apply leaves_coll with (s := rf m s).
Qed.

Variable b : N.
Notation degree := (2 ^ b)%N.
Notation pcp := (pcap degree).

Lemma tn_get_mut_ok : forall g r d n c ts n' f cap fuel, tall r n -> pcp r d h n cap ->
  hn_get_mut ubits dbg borrow qeq fuel q h g n d degree = Ok (n', f) -> ncont n c ts ->
  safe (r + 2 * cap + 5) (tn_get_mut ubits dbg borrow qeq fuel q h g c d degree) (map Tree ts) (leaves f n').
Proof.
  intros g. induction r as [|r IH]; intros d n c ts n' f cap fuel T P H Hc; (destruct fuel as [|fuel]; [discriminate|]);
    destruct n as [s|bk]; try (destruct T; fail).
  1, 3: cbn [hn_get_mut pcap] in *; inv H y Ey; destruct y as [bk' f']; injection H as <- <-;
    (eapply safe_mono; [| |enough (X : safe (2 * cap + 5) (tb_get_mut tm g c) (map Tree ts) (leaves f' (HLeaf bk')));
      [inversion Hc; subst; exact X|now apply tb_get_mut_ok with (bk := bk)]]; [lia|trivial]).
  inversion Hc as [s0 s' ts' E1 E2 F| |]; subst. cbn [hn_get_mut tn_get_mut tall pcap] in *.
  inv H oi Ei. rewrite Ei. inv H i Eu. cbn [lift pbind]. rewrite Eu. cbn [lift pbind].
  assert (oi = Some i) by (destruct oi; cbn in Eu; congruence). subst oi.
  inv H y Eg. assert (S : sim s s' ts) by now repeat split. pose proof (sim_get_mut _ _ _ _ _ S Eg) as Sg.
  destruct y as [[n w]|].
  - destruct Sg as (Hg & ts1 & t & ts2 & w' & -> & Ht & Eg' & Hw & _ & Harr).
    rewrite Eg'. cbn [lift pbind]. inv H y Ey. destruct y as [c' f']. injection H as <- <-.
    inversion Ht as [n1 p cc tts Hc']; subst. cbn [pa].
    seqq 1 (r + 2 * cap + 5) [Tree (PT p cc tts)] (map Tree (ts1 ++ ts2))
      (fun r G => exists a', r = (a', cc) /\ G = Held a' :: map Tree tts).
    { eapply tmake_mut_ok; eauto. }
    intros r0 G' (p' & -> & ->).
    assert (Tn : tall r n).
    { destruct (Harr n) as (l1 & l2 & E3 & _). rewrite E3 in T. rewrite Forall_forall in T. apply T, in_elt. }
    seqq (r + 2 * cap + 5) 0 (map Tree tts) (Held p' :: map Tree (ts1 ++ ts2)) (leaves f' c').
    { apply (IH (Datatypes.S d) n cc tts c' f' cap fuel); trivial. exact (P _ _ Ei Hg). }
    intros r1 G1 (c1 & ts' & -> & Hc1 & ->). cbn [pbind].
    exists ts', (map Tree (ts1 ++ ts2)). split; [perm|]. split; [eapply ncont_kids; eauto|].
    exists (map Tree (ts1 ++ PT p' c1 ts' :: ts2)). split; [perm|].
    exists (TB (w' p')), (ts1 ++ PT p' c1 ts' :: ts2). splits; trivial.
    apply sim_cont. apply (Hw c' (PT p' c1 ts')). now constructor.
  - rewrite Sg. cbn [lift pbind]. injection H as <- <-. apply safe_ret. exists (TB s'), ts. auto.
Qed.

(** ** Removal *)
Lemma tn_is_empty_ok : forall (n : node) (c : C) (ts : list ptree) x, ncont n c ts -> hn_is_empty dbg n = Ok x -> tn_is_empty dbg c = Ret x.
Proof.
  intros n c ts x Hc H. destruct Hc as [s s' ts E1 E2 F|e y E|L l s ts R1 R2]; cbn [hn_is_empty tn_is_empty] in *.
  - unfold sa_size in *. rewrite E1. now injection H as <-.
  - now injection H as <-.
  - rewrite (hl_len_rep _ _ _ R2). assert (El : l_len l = length s) by apply R1. rewrite El in H.
    inv H z Ez. rewrite Ez. now injection H as <-.
Qed.

Lemma tn_compress_ok : forall s s' ts n', sim s s' ts -> length (sa_array s) = sa_size s ->
  hn_compress (HBranch s) = Ok n' ->
  safe 1 (tn_compress (TB s')) (map Tree ts) (fun c G => exists us, ncont n' c us /\ G = map Tree us).
Proof.
  intros s s' ts n' S Hl H. unfold hn_compress in H. unfold tn_compress.
  pose proof S as (E1 & E2 & F). assert (Es : sa_size s' = sa_size s) by (unfold sa_size; now rewrite E1). rewrite Es.
  assert (Stay : safe 1 (Ret (TB s')) (map Tree ts) (fun c G => exists us, ncont (HBranch s) c us /\ G = map Tree us)).
  { apply safe_ret. exists ts. split; trivial. now apply sim_cont. }
  destruct (sa_size s) as [|[|k]] eqn:Ez; try (injection H as <-; exact Stay).
  destruct (sa_array s) as [|n0 [|? ?]] eqn:Ea; try discriminate.
  inversion F as [|? t ? m' Ht F']; subst. inversion F'; subst.
  unfold sa_first, sa_pop in *. rewrite Ea in H. rewrite E2. cbn [map hd_error unwrap bind lift pbind] in *.
  inversion Ht as [n1 p cc tts Hc]; subst. cbn [pa].
  eexists _, _. split; [apply lent_in; now left|]. intros _.
  destruct Hc as [s1 s1' ts1 E3 E4 F1|e x E|L l s1 ts1 R1 R2].
  - injection H as <-. exact Stay.
  - cbn [snd last_error] in H. injection H as <-. cbn [last_error removelast].
    seqq 1 0 [Tree (PT p (TS e) [et e x])] (@nil own)
      (fun r (G : list own) => exists a', r = (a', @TS K V e) /\ G = Held a' :: map Tree [et e x]).
    { apply (tmake_mut_ok (HLeaf (BSingle x))). now constructor. }
    intros r G (p' & -> & ->). cbn [app map].
    exists [], [Tree (et e x)]. splits; [perm|trivial|].
    set (u := PT p' (@TB K V {| sa_bitmap := sa_bitmap s'; sa_array := [] |}) []).
    seqq 0 0 [Tree u] [Tree (et e x)] (fun (_ : unit) (G : list own) => G = []).
    { apply (tdrop_empty (mkSA (sa_bitmap s') []) u); trivial. unfold u. repeat constructor. }
    intros [] G ->. apply safe_ret. exists [et e x]. split; trivial. now constructor.
  - injection H as <-. exact Stay.
Qed.

Lemma tb_remove_ok : forall bk c ts obk f cap, ncont (HLeaf bk) c ts ->
  b_remove borrow qeq q h bk = Ok (obk, f) -> bcap bk cap ->
  safe (2 * cap) (tb_remove tm c) (map Tree ts)
    (fun r G => match obk with
                | None => r = (None, f) /\ G = map Tree ts /\ exists e x, c = TS e /\ ts = [et e x]
                | Some bk' => exists c' ts', r = (Some c', f) /\ ncont (HLeaf bk') c' ts' /\ G = map Tree ts'
                end).
Proof.
  intros bk c ts obk f cap Hc E Hcap.
  inversion Hc as [|o x Ex|L l s ts' R1 R2]; subst; cbn [tb_remove b_remove bcap] in *.
  - apply (tests_seq _ tm m o x); trivial; [apply tests_q|apply lent_in; now left|].
    apply safe_ret. destruct (m x); injection E as <- <-.
    + splits; trivial. eauto.
    + exists (TS o), [et o x]. splits; trivial.
  - destruct (lrf_value m l s R1) as (l' & El & Rl). rewrite El in E. cbn [bind] in E.
    assert (Els : l_len l = length s) by apply R1.
    seqq (2 * length s) 0 (map (@Tree C) ts) (@nil own)
      (fun r G' => exists G1, trep (fst r) (rf m s) G1 /\
       match find m s with
       | None => snd r = None /\ G' = G1
       | Some x => exists e, snd r = Some e /\ snd e = e_hash x /\ G' = Tree (et e x) :: G1
       end).
    { apply tlist_remove_first_ok; trivial. apply tests_q. }
    intros [L' rm] G' (G1 & RL & Hf). cbn [fst snd] in RL, Hf. rewrite app_nil_r.
    seqq 0 0 G' (@nil own) (fun (_ : unit) G => G = G1 /\ is_some rm = is_some (find m s)).
    { destruct (find m s) as [x|].
      - destruct Hf as (o & -> & Eo & ->).
        apply (safe_frame tkids _ 0 0 _ [Tree (et o x)] G1 (fun _ G => G = [])); [apply et_drop|perm| |lia].
        intros [] G2 ->. exists G1. cbn [app is_some]. auto.
      - destruct Hf as (-> & ->). apply safe_ret. auto. }
    intros [] G2 (-> & Er). rewrite app_nil_r. cbv beta.
    assert (Er' : @is_some hewh rm = is_some (find m s)) by exact Er. rewrite !Er'.
    assert (El' : l_len l' = length (rf m s)) by apply Rl. rewrite El' in E. rewrite (hl_len_rep _ _ _ RL).
    destruct (rf m s) as [|y [|z s2]] eqn:Erf; cbn [length] in *; [discriminate| |].
    + rewrite (l_rep_first _ _ Rl) in E. cbn [hd_error unwrap bind] in E. injection E as <- <-.
      destruct (tfirst_lent L' y [] G1 RL) as (e & Ee & Le & First).
      apply (First _ _ 0 []). cbn [app]. eexists _, _. split; [exact Le|]. fold (et e y).
      seqq 0 0 G1 [Tree (et e y)] (fun (_ : unit) (G : list own) => G = []); [eapply tl_drop_ok; eauto|].
      intros [] G ->. apply safe_ret. exists (TS e), [et e y]. splits; trivial. now constructor.
    + injection E as <- <-. apply safe_ret. destruct (trep_trees _ _ _ RL) as (us & ->).
      exists (TC L'), us. splits; trivial. now apply nc_coll with (s := y :: z :: s2).
Qed.

Hypothesis Hb : (0 < b)%N.
Hypothesis Hdeg : (2 ^ b <= ubits)%N.
Hypothesis Hub : (ubits <= 64)%N.

Lemma hrep_tall : forall r d (n : node) es, hrep ubits b r d n es -> tall r n.
Proof using.
  induction r as [|r IH]; intros d n es H; destruct n as [s|bk]; try exact I.
  - destruct H.
  - cbn [hrepg tall] in *. destruct H as (al & (_ & Ea & _) & Hc). rewrite Ea. clear - Hc IH.
    induction Hc as [|i c ec al rest Hr Hne Hd Hb2 Hrest IHc]; cbn [map snd]; constructor; eauto.
Qed.

Lemma wf_size : forall (s : sarr node) al, sa_wf ubits s al -> length (sa_array s) = sa_size s.
Proof.
  intros s al W. rewrite (sa_size_ok ubits dbg (Hu0 ubits dbg b Hb Hdeg Hub) s al W).
  destruct W as (_ & -> & _). apply map_length.
Qed.

Lemma tn_remove_ok : forall r d n es c ts n' f cap fuel, hrep ubits b r d n es -> d + r = D b -> r < fuel ->
  (es <> [] \/ n = new_empty_branch) -> uniq m es -> pcp r d h n cap ->
  hn_remove ubits dbg borrow qeq fuel q h n d degree = Ok (n', f) -> ncont n c ts ->
  safe (2 * r + 2 * cap) (tn_remove ubits dbg borrow qeq fuel q h c d degree) (map Tree ts) (leaves f n').
Proof.
  induction r as [|r IH]; intros d n es c ts n' f cap fuel Hr Hd Lf Hne Hu P H Hc; (destruct fuel as [|fuel]; [discriminate|]);
    destruct n as [s|bk]; try (destruct Hr; fail).
  1, 3: cbn [hn_remove pcap] in *; inv H y Ey; destruct y as [obk f']; injection H as <- <-.
  1, 2: eapply safe_mono with (n := 2 * cap) (Q := leaves f' match obk with Some b' => HLeaf b' | None => new_empty_branch end);
    [lia|trivial|].
  1, 2: assert (X := tb_remove_ok bk c ts obk f' cap Hc Ey P).
  1, 2: assert (Y : safe (2 * cap) (let* (oc, removed) := tb_remove tm c in
          match oc with
          | Some c' => Ret (c', removed)
          | None => let* _ := tglue (fun _ => Fail) c in Ret (TB sa_new, removed)
          end) (map Tree ts) (leaves f' match obk with Some b' => HLeaf b' | None => new_empty_branch end));
     [|inversion Hc; subst; exact Y].
  1, 2: eapply (safe_seq _ _ _ (2 * cap) 0 _ _ (map Tree ts) []); [exact X|perm| |lia];
    intros [oc rm] G HG; rewrite app_nil_r; destruct obk as [bk'|];
    [destruct HG as (c' & ts' & [= -> ->] & Hc' & ->); apply safe_ret; exists c', ts'; auto
    |destruct HG as ([= -> ->] & -> & e & x & -> & ->); cbn [tglue];
     seqq 0 0 [Tree (et e x)] (@nil own) (fun (_ : unit) (G : list own) => G = []); [apply et_drop|];
     intros [] G ->; apply safe_ret; exists (TB sa_new), []; splits; trivial; apply sim_cont, sim_new].
  inversion Hc as [s0 s' ts' E1 E2 F| |]; subst.
  pose proof Hr as Hr0. cbn [hrepg] in Hr. destruct Hr as (al & Hw & Hch).
  cbn [hn_remove tn_remove pcap] in *.
  rewrite (index_ok ubits dbg b Hb Hdeg Hub) in * by lia. destruct (Nat.ltb_spec d (D b)); [|lia].
  cbn [bind unwrap lift pbind] in *.
  assert (S : sim s s' ts) by now repeat split.
  assert (Hm : forall e, m e = true -> idx b d (e_hash e) = idx b d h).
  { intros e He. unfold matches in He. apply andb_true_iff in He as [He _]. apply N.eqb_eq in He. now rewrite He. }
  pose proof (Hu0 ubits dbg b Hb Hdeg Hub) as HU.
  pose proof (idx_lt ubits dbg b Hb Hdeg Hub d h) as Hi.
  destruct (sa_access ubits dbg HU s al (idx b d h) Hw Hi)
    as [(l1 & l2 & -> & B & A & _ & Eg & _)|(l1 & c0 & l2 & -> & B & A & _ & (w & Eg & Hset) & _)];
    rewrite Eg in H; cbn [bind] in H; pose proof (sim_get_mut _ _ _ _ _ S Eg) as Sg; cbv beta iota in Sg.
  { rewrite Sg. cbn [lift pbind]. injection H as <- <-. apply safe_ret. exists (TB s'), ts. auto. }
  destruct Sg as (Hg & ts1 & t & ts2 & w' & -> & Ht & Eg' & Hwr & Hrm & _).
  rewrite Eg'. cbn [lift pbind].
  destruct (chl_focus ubits dbg b Hb Hdeg Hub _ _ m _ _ _ _ _ Hch B A Hm) as (es1 & ec & es2 & -> & N1 & N2 & C1 & C2 & Hrc & Hnec & Hdg & Hbr).
  assert (Uc := uniq_focus _ _ _ _ Hu).
  inv H y Ey. destruct y as [c' f'].
  destruct (hn_remove_ok ubits dbg b Hb Hdeg Hub borrow qeq q h r (Datatypes.S d) c0 ec fuel Hrc ltac:(lia) ltac:(lia) (or_introl Hnec) Uc)
    as (c'' & Ey' & Hcase & _). rewrite Ey in Ey'. injection Ey' as <- Ef'. cbv zeta in Hcase.
  inversion Ht as [n1 p cc tts Hcc]; subst n1 t. cbn [pa].
  seqq 1 (2 * r + 2 * cap + 1) [Tree (PT p cc tts)] (map Tree (ts1 ++ ts2))
      (fun r G => exists a', r = (a', cc) /\ G = Held a' :: map Tree tts).
  { eapply tmake_mut_ok; eauto. }
  intros r0 G' (p' & -> & ->).
  seqq (2 * r + 2 * cap) 1 (map Tree tts) (Held p' :: map Tree (ts1 ++ ts2)) (leaves f' c').
  { apply (IH (Datatypes.S d) c0 ec cc tts c' f' cap fuel); trivial; try lia; [now left|].
    apply (P (idx b d h)); trivial. }
  intros r1 G1 (c1 & ts' & -> & Hc1 & ->).
  inv H emp Ee. rewrite (tn_is_empty_ok _ _ _ _ Hc1 Ee). cbn [pbind].
  exists ts', (map Tree (ts1 ++ ts2)). split; [perm|]. split; [eapply ncont_kids; eauto|].
  set (u := PT p' c1 ts').
  assert (Hu' : ntree c' u) by now constructor.
  assert (Sw := Hwr c' u Hu'). cbn [pa u] in Sw.
  assert (Nof : forall x : bool, safe 1 (Ret (TB (w' p'), x)) (Tree u :: map Tree (ts1 ++ ts2)) (leaves x (HBranch (w c')))).
  { intros x. exists (map Tree (ts1 ++ u :: ts2)). split; [perm|]. exists (TB (w' p')), (ts1 ++ u :: ts2). splits; trivial.
    now apply sim_cont. }
  destruct f'; [|destruct emp; injection H as <- <-; apply Nof].
  destruct emp.
  - inv H s2 Es. inv H n2 En. injection H as <- <-.
    destruct (Hrm c' p' s2 Es) as (s2' & Es' & S2). rewrite Es'. cbn [lift pbind].
    assert (Ec' : c' = new_empty_branch).
    { destruct Hcase as [(_ & ->)|(Hx & Hy)]; [trivial|].
      rewrite (hn_is_empty_ok ubits dbg b Hb Hdeg Hub r (Datatypes.S d) c' _ Hx Hy) in Ee. discriminate. }
    seqq 0 1 [Tree u] (map Tree (ts1 ++ ts2)) (fun (_ : unit) (G : list own) => G = []).
    { apply (tdrop_empty sa_new u); trivial. now rewrite Ec' in Hu'. }
    intros [] G ->. cbn [app].
    assert (Hl : length (sa_array s2) = sa_size s2).
    { destruct (sa_access ubits dbg HU _ _ (idx b d h) (Hset c') Hi)
        as [(k1 & k2 & E3 & _ & _ & _ & _ & Er & _)|(k1 & c2 & k2 & E3 & _ & _ & _ & _ & (s3 & Er & W3) & _)];
        rewrite Er in Es; injection Es as <-.
      - eapply wf_size. apply Hset.
      - eapply wf_size. exact W3. }
    seqq 1 0 (map Tree (ts1 ++ ts2)) (@nil own) (fun c G => exists us, ncont n2 c us /\ G = map Tree us).
    { now apply tn_compress_ok with (s := s2). }
    intros c2 G (us & Hc2 & ->). rewrite app_nil_r. apply safe_ret. exists c2, us. auto.
  - inv H n2 En. injection H as <- <-.
    seqq 1 0 (map Tree (ts1 ++ u :: ts2)) (@nil own) (fun c G => exists us, ncont n2 c us /\ G = map Tree us).
    { apply tn_compress_ok with (s := w c'); trivial. eapply wf_size. apply Hset. }
    intros c2 G (us & Hc2 & ->). rewrite app_nil_r. apply safe_ret. exists c2, us. auto.
Qed.
End Lookup.
End Nodes.
