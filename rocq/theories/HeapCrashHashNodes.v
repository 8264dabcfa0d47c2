(** * The hash trie on the heap when user code panics: buckets and nodes *)
From Coq Require Import List NArith Arith Lia Bool Permutation.
From Verif Require Import Base Spec SpecMap Sim ListModel ListProofs SparseModel SparseProofs HashModel HashProofs HashHist HashExtraProofs
  CrashModel CrashProofs
  PermSolve HeapModel HeapProofs HeapSafe HeapClient HeapList HeapListProofs HeapVec HeapVecProofs HeapHash HeapHashProofs HeapHashNodes HeapCrashHash
  HeapCrashHashProofs.
Import ListNotations.
Local Open Scope prog_scope.

Section Nodes.
Variable ubits : N.
Variable dbg : bool.
Variable b : N.
Hypothesis Hb : (0 < b)%N.
Hypothesis Hdeg : (2 ^ b <= ubits)%N.
Hypothesis Hub : (ubits <= 64)%N.
Context {K V : Type}.
Notation C := (tcell K V).
Notation own := (@own C).
Notation ptree := (@ptree C).
Notation safe := (safe (@tkids K V)).
Notation entry := (hentry K V).
Notation node := (hnode K V).
Notation trep L s G := (lrep (T := entry) TLN TLE terep L s (last_error s) G).
Notation tchain := (chain (T := entry) TLN TLE terep).
Notation degree := (2 ^ b)%N.
Notation pcp := (pcap ubits dbg degree).
Notation upost := (@upost ubits b K V).
Notation wrep := (@hrepg ubits b K V false).

(** A call given [n] user calls, which needs at most [B]. *)
Definition xleaves {X} (B n : nat) (U : bool -> node -> Prop) (f : X) (n' : node) (r : crash (C * bool) (C * X)) (G : list own) : Prop :=
  match r with
  | Done k y => k <= n <= k + B /\ leaves f n' y G
  | Unwound (c, fl) => n < B /\ exists n'' ts, ncont n'' c ts /\ G = map Tree ts /\ U fl n''
  end.

Lemma xleaves_mono : forall X B B' n n0 (U U' : bool -> node -> Prop) (f : X) n' r G, n0 <= n <= n0 + (B' - B) -> B <= B' ->
  (forall fl n'', U fl n'' -> U' fl n'') -> xleaves B n0 U f n' r G -> xleaves B' n U' f n' r G.
Proof using.
  clear Hb Hdeg Hub. intros X B B' n n0 U U' f n' [k y|[c fl]] G H1 H2 HU H; cbn [xleaves] in *.
  - destruct H as (H & L). split; [lia|exact L].
  - destruct H as (H & n'' & ts & Hc & -> & Hu). split; [lia|]. exists n'', ts. auto.
Qed.

Definition cutl (s : list entry) : rlist entry := mkL s (last_error s) (length s).
Lemma cutl_rep : forall s, l_rep (cutl s) s.
Proof using. intros s. repeat split. Qed.

Lemma unwound_cut : forall {X} B n h d l s1 x s2 L' (f : X) n' G, l_rep l (s1 ++ x :: s2) -> trep L' s2 G -> n < B ->
  xleaves B n (upost h d (HLeaf (BCollision l))) f n' (Unwound (TC L', true)) G.
Proof using dbg Hb Hdeg Hub.
  intros X B n h d l s1 x s2 L' f n' G R1 R2 Hn. split; [exact Hn|].
  destruct (trep_trees _ _ _ R2) as (ts & ->).
  exists (HLeaf (BCollision (cutl s2))), ts. splits; trivial.
  - apply nc_coll with (s := s2); trivial. apply cutl_rep.
  - eapply (upost_cut ubits dbg b Hb Hdeg Hub); [exact R1|apply cutl_rep].
Qed.

Section Insert.
Variable keq : K -> K -> bool.
Notation mk e := (matches_key (V := V) keq (e_key e) (e_hash e)).

Lemma xtests_key : forall (e : entry) (a : hewh), snd a = e_hash e -> xtests (xmatches (fun k' => keq k' (e_key e)) (snd a)) (mk e).
Proof using. intros e a ->. exact (xmatches_ok (fun k' => keq k' (e_key e)) (e_hash e)). Qed.

Lemma xbk_insert_ok : forall p e, xtests p (mk e) -> forall n h d bk c ts bk' f a cap, ncont (HLeaf bk) c ts ->
  b_insert keq e bk = Ok (bk', f) -> snd a = e_hash e -> bcap bk cap ->
  safe (2 * cap + 2) (xbk_insert p n a c) (Tree (et a e) :: map Tree ts) (xleaves cap n (upost h d (HLeaf bk)) f (HLeaf bk')).
Proof using dbg Hb Hdeg Hub.
  intros p e Hp n h d bk c ts bk' f a cap Hc E Ea Hcap.
  inversion Hc as [|o x Ex|L l s ts' R1 R2]; subst; cbn [xbk_insert b_insert bcap] in *.
  - apply (xtests_seq _ p (mk e) n o x); trivial; [apply lent_in; right; now left| |].
    { intros ->. seqq 0 0 [Tree (et a e)] [Tree (et o x)] (fun (_ : unit) (G : list own) => G = []); [apply et_drop|].
      intros [] G ->. apply safe_ret. split; [lia|]. exists (HLeaf (BSingle x)), [et o x]. splits; trivial. apply upost_refl. }
    intros n' Hn. destruct (mk e x).
    + injection E as <- <-. seqq 0 0 [Tree (et o x)] [Tree (et a e)] (fun (_ : unit) (G : list own) => G = []); [apply et_drop|].
      intros [] G ->. apply safe_ret. split; [lia|]. exists (TS a), [et a e]. splits; trivial. now constructor.
    + injection E as <- <-.
      eexists _, _. split; [apply lent_in; right; now left|]. fold (et o x).
      seqq 2 2 [Tree (et o x)] [Tree (et a e); Tree (et o x)] (fun L' G' => trep L' [x] G').
      { apply (tl_push_ok hl_new [] [] o x); trivial. apply trep_new. }
      intros L1 G1 R1.
      seqq 2 0 (Tree (et a e) :: G1) [Tree (et o x)] (fun L' G' => trep L' [e; x] G').
      { apply (tl_push_ok L1 [x] G1 a e); trivial. }
      intros L2 G2 R2.
      seqq 0 0 [Tree (et o x)] G2 (fun (_ : unit) (G : list own) => G = []); [apply et_drop|].
      intros [] G ->. apply safe_ret. cbn [app]. split; [lia|].
      apply leaves_coll with (s := [e; x]); trivial. apply l_rep_push. apply l_rep_push. apply l_rep_new.
  - destruct (lrf_value (mk e) l s R1) as (l' & El & Rl). rewrite El in E. cbn [bind] in E. injection E as <- <-.
    assert (Els : l_len l = length s) by apply R1.
    eapply (safe_seq _ _ _ (2 * length s) 2 _ _ (map (@Tree C) ts) [Tree (et a e)]);
      [apply (xlist_remove_first_ok p (mk e) Hp n L s _ R2)|perm| |lia].
    intros [n1 [L' rm]|L'] G' H.
    2:{ destruct H as (Hn & s1 & y & s2 & -> & R3).
        seqq 0 2 [Tree (et a e)] G' (fun (_ : unit) (G : list own) => G = []); [apply et_drop|].
        intros [] G ->. apply safe_ret. eapply unwound_cut; eauto. lia. }
    destruct H as (Hn1 & G1 & RL & Hf). cbn [fst snd] in RL, Hf.
    seqq 0 2 G' [Tree (et a e)] (fun (_ : unit) G => G = G1 /\ is_some rm = is_some (find (mk e) s)).
    { destruct (find (mk e) s) as [x|].
      - destruct Hf as (o & -> & Eo & ->).
        apply (safe_frame tkids _ 0 0 _ [Tree (et o x)] G1 (fun _ G => G = [])); [apply et_drop|perm| |lia].
        intros [] G2 ->. exists G1. cbn [app is_some]. auto.
      - destruct Hf as (-> & ->). apply safe_ret. auto. }
    intros [] G2 (-> & <-).
    seqq 2 0 (Tree (et a e) :: G1) (@nil own) (fun L2 G' => trep L2 (e :: rf (mk e) s) G').
    { now apply tl_push_ok. }
    intros L2 G3 R3. rewrite app_nil_r. apply safe_ret. split; [lia|].
    apply leaves_coll with (s := e :: rf (mk e) s); trivial. now apply l_rep_push.
Qed.

Notation hins := (hn_insert ubits dbg keq).
Notation xins := (xn_insert ubits dbg keq).

(** Into an empty branch nothing is compared. *)
Lemma xins_empty : forall fuel n d o a n1 f, hins (S fuel) o new_empty_branch d degree = Ok (n1, f) -> snd a = e_hash o ->
  safe 1 (xins (S fuel) n (e_key o) a (TB sa_new) d degree) [Tree (et a o)] (fun r G => exists y, r = Done n y /\ leaves f n1 y G).
Proof using.
  intros fuel n d o a n1 f H Ea. unfold new_empty_branch in H. cbn [hn_insert xn_insert] in *. rewrite Ea.
  inv H oi Ei. rewrite Ei. inv H i Eu. cbn [lift pbind]. rewrite Eu. cbn [lift pbind].
  inv H g Eg. pose proof (sim_get_mut _ _ _ _ _ _ _ sim_new Eg) as Sg.
  destruct g as [[m w]|].
  { exfalso. destruct Sg as (Hg & ts1 & t & ts2 & w' & E & _). destruct ts1; discriminate. }
  rewrite Sg. cbn [lift pbind]. inv H s2 Es. injection H as <- <-.
  destruct (sim_set_none _ _ _ _ _ _ _ _ sim_new Eg Es) as (ts1 & ts2 & E & Hset).
  destruct ts1; [|discriminate]. destruct ts2; [|discriminate]. cbn [app] in Hset.
  exists 0, [et a o], []. splits; trivial. intros p.
  destruct (Hset (PT p (TS a) [et a o])) as (s2' & E2 & S2); [now repeat constructor|].
  cbn [pa] in E2. rewrite E2. cbn [lift pbind]. apply safe_ret. eexists. split; [reflexivity|].
  exists (TB s2'), [PT p (TS a) [et a o]]. splits; trivial. now apply sim_cont.
Qed.

Lemma xins_branch_ok : forall r n d s s' ts e a fuel n' f cap nb B,
  (forall c0 cc tts n0 f0, tall r c0 -> pcp r (S d) (e_hash e) c0 cap ->
     hins fuel e c0 (S d) degree = Ok (n0, f0) -> ncont c0 cc tts ->
     safe nb (xins fuel n (e_key e) a cc (S d) degree) (Tree (et a e) :: map Tree tts)
       (xleaves B n (upost (e_hash e) (S d) c0) f0 n0)) ->
  tall (S r) (HBranch s) -> pcp (S r) d (e_hash e) (HBranch s) cap ->
  hins (S fuel) e (HBranch s) d degree = Ok (n', f) -> sim s s' ts -> snd a = e_hash e ->
  safe (1 + nb) (xins (S fuel) n (e_key e) a (TB s') d degree) (Tree (et a e) :: map Tree ts)
    (xleaves B n (upost (e_hash e) d (HBranch s)) f n').
Proof using Hb Hdeg Hub.
  intros r n d s s' ts e a fuel n' f cap nb B IH T P H S Ea. cbn [hn_insert xn_insert tall pcap] in *. rewrite Ea.
  inv H oi Ei. rewrite Ei. inv H i Eu. cbn [lift pbind]. rewrite Eu. cbn [lift pbind].
  assert (oi = Some i) by (destruct oi; cbn in Eu; congruence). subst oi.
  inv H g Eg. pose proof (sim_get_mut _ _ _ _ _ _ _ S Eg) as Sg.
  destruct g as [[m w]|].
  - destruct Sg as (Hg & ts1 & t & ts2 & w' & -> & Ht & Eg' & Hw & _ & Harr).
    rewrite Eg'. cbn [lift pbind]. inv H y Ey. destruct y as [c' f']. injection H as <- <-.
    inversion Ht as [n1 p cc tts Hc]; subst. cbn [pa].
    seqq 1 nb [Tree (PT p cc tts)] (Tree (et a e) :: map Tree (ts1 ++ ts2))
      (fun r G => exists a', r = (a', cc) /\ G = Held a' :: map Tree tts).
    { eapply tmake_mut_ok; eauto. }
    intros r0 G' (p' & -> & ->).
    assert (Tn : tall r m).
    { destruct (Harr m) as (l1 & l2 & E1 & _). rewrite E1 in T. rewrite Forall_forall in T. apply T, in_elt. }
    specialize (IH m cc tts c' f' Tn (P _ _ Ei Hg) Ey Hc).
    eapply (safe_seq _ _ _ nb 0 _ _ (Tree (et a e) :: map Tree tts) (Held p' :: map Tree (ts1 ++ ts2))); [exact IH|perm| |lia].
    intros [k1 [c1 y1]|[c1 fl]] G1 HX.
    + destruct HX as (Hn & c2 & ts' & [= -> ->] & Hc' & ->).
      exists ts', (map Tree (ts1 ++ ts2)). split; [perm|]. split; [eapply ncont_kids; eauto|].
      exists (map Tree (ts1 ++ PT p' c2 ts' :: ts2)). split; [perm|]. split; [exact Hn|].
      exists (TB (w' p')), (ts1 ++ PT p' c2 ts' :: ts2). splits; trivial.
      apply sim_cont. apply (Hw c' (PT p' c2 ts')). now constructor.
    + destruct HX as (Hn & n'' & ts' & Hc' & -> & Hup).
      exists ts', (map Tree (ts1 ++ ts2)). split; [perm|]. split; [eapply ncont_kids; eauto|].
      exists (map Tree (ts1 ++ PT p' c1 ts' :: ts2)). split; [perm|]. split; [exact Hn|].
      exists (HBranch (w n'')), (ts1 ++ PT p' c1 ts' :: ts2). splits; trivial.
      * apply sim_cont. apply (Hw n'' (PT p' c1 ts')). now constructor.
      * eapply (upost_branch ubits dbg b Hb Hdeg Hub); eauto.
  - rewrite Sg. cbn [lift pbind]. inv H s2 Es. injection H as <- <-.
    destruct (sim_set_none _ _ _ _ _ _ _ _ S Eg Es) as (ts1 & ts2 & -> & Hset).
    exists nb, [et a e], (map Tree (ts1 ++ ts2)). splits; trivial. intros p.
    destruct (Hset (PT p (TS a) [et a e])) as (s2' & E2 & S2); [now repeat constructor|].
    cbn [pa] in E2. rewrite E2. cbn [lift pbind].
    exists (map Tree (ts1 ++ PT p (TS a) [et a e] :: ts2)). split; [perm|]. split; [lia|].
    exists (TB s2'), (ts1 ++ PT p (TS a) [et a e] :: ts2). splits; trivial. now apply sim_cont.
Qed.

Lemma bcap_blen : forall (bk : hbucket K V) cap, bcap bk cap -> blen bk <= cap.
Proof using. clear. intros [x|l] cap H; cbn in *; lia. Qed.

Lemma xn_insert_ok : forall r n d m c ts e a n' f cap fuel, tall r m -> d + r = D b ->
  pcp r d (e_hash e) m cap -> 1 <= cap -> hins fuel e m d degree = Ok (n', f) -> ncont m c ts -> snd a = e_hash e ->
  safe (2 * r + 2 * cap + 2) (xins fuel n (e_key e) a c d degree) (Tree (et a e) :: map Tree ts)
    (xleaves (r + 2 * cap) n (upost (e_hash e) d m) f n').
Proof using Hb Hdeg Hub.
  induction r as [|r IH]; intros n d m c ts e a n' f cap fuel T Hd P Hcap H Hc Ea; (destruct fuel as [|fuel]; [discriminate|]).
  - destruct m as [s|bk]; [destruct T|]. cbn [pcap] in P.
    assert (X : exists bk', b_insert keq e bk = Ok (bk', f) /\ n' = HLeaf bk' /\ exists o, b_find (mk e) bk = Ok o).
    { cbn [hn_insert] in H. rewrite (index_ok ubits dbg b Hb Hdeg Hub) in H by lia.
      destruct (Nat.ltb_spec d (D b)); [lia|]. cbn [bind is_some negb] in H. unfold b_contains_key in H.
      inv H x Ex. inv Ex o Eo. inv H y Ey. destruct y as [bk' f']. injection H as <- <-. eauto. }
    destruct X as (bk' & Eb & -> & o & Eo).
    assert (Sf := xbk_find_ok _ _ (xtests_key e a Ea) n bk c ts (Tree (et a e) :: map Tree ts) o Hc
      ltac:(intros t I; apply lent_in; right; now apply in_map) Eo).
    assert (Ei : index_from_hash dbg (snd a) d degree = Ok None).
    { rewrite (index_ok ubits dbg b Hb Hdeg Hub) by lia. destruct (Nat.ltb_spec d (D b)); [lia|trivial]. }
    assert (Etr : xins (S fuel) n (e_key e) a c d degree =
      (let matching := xmatches (fun k' => keq k' (e_key e)) (snd a) in
       let* r := xbk_find matching n c in
       match r with
       | Unwound _ => let* _ := drop_ptr tkids 1 (fst a) in Ret (Unwound (c, false))
       | Done n found => xbk_insert matching n a c
       end)).
    { inversion Hc; subst; cbn [xn_insert]; rewrite Ei; reflexivity. }
    rewrite Etr. cbv zeta. apply bcap_blen in P as Pb.
    eapply (safe_seq _ _ _ 0 (2 * cap + 2) _ _ (Tree (et a e) :: map Tree ts) []); [exact Sf|perm| |lia].
    intros [n1 r0|u] G' (-> & HF); rewrite app_nil_r.
    + destruct HF as (Hn & _). eapply safe_mono; [apply le_n| |apply (xbk_insert_ok _ e (xtests_key e a Ea) n1 (e_hash e) d bk c ts bk' f a cap Hc Eb Ea P)].
      intros x G. apply xleaves_mono; auto; lia.
    + cbn [xfound] in HF.
      seqq 0 0 [Tree (et a e)] (map Tree ts) (fun (_ : unit) (G : list own) => G = []); [apply et_drop|].
      intros [] G ->. apply safe_ret. split; [lia|]. exists (HLeaf bk), ts. splits; trivial. apply upost_refl.
  - destruct m as [s|bk].
    + inversion Hc as [s0 s' ts' E1 E2 F| |]; subst.
      eapply safe_mono; [| |eapply (xins_branch_ok r n d s s' ts e a fuel n' f cap (2 * r + 2 * cap + 2) (r + 2 * cap))]; eauto; try lia.
      * intros x G. apply xleaves_mono; auto; lia.
      * intros c0 cc tts n0 f0 T0 P0 H0 C0. apply (IH n (S d) c0 cc tts e a n0 f0 cap fuel); trivial. lia.
      * now repeat split.
    + cbn [pcap] in P.
      assert (Ei : forall h, index_from_hash dbg h d degree = Ok (Some (idx b d h))).
      { intros h. rewrite (index_ok ubits dbg b Hb Hdeg Hub) by lia. destruct (Nat.ltb_spec d (D b)); [trivial|lia]. }
      cbn [hn_insert] in H. rewrite Ei in H. cbn [bind is_some negb] in H. unfold b_contains_key in H.
      inv H x Ex. inv Ex o Eo. injection Ex as <-.
      assert (Sf := xbk_find_ok _ _ (xtests_key e a Ea) n bk c ts (Tree (et a e) :: map Tree ts) o Hc
        ltac:(intros t I; apply lent_in; right; now apply in_map) Eo).
      assert (Etr : xins (S fuel) n (e_key e) a c d degree =
        (let matching := xmatches (fun k' => keq k' (e_key e)) (snd a) in
         let* r := xbk_find matching n c in
         match r with
         | Unwound _ => let* _ := drop_ptr tkids 1 (fst a) in Ret (Unwound (c, false))
         | Done n found =>
             if is_some found then xbk_insert matching n a c
             else match c with
                  | TS old =>
                      Clone (fst old)
                        (let* _ := drop_ptr tkids 1 (fst old) in
                         read_entry old (fun kv =>
                           let* r := xins fuel n (fst kv) old (TB sa_new) d degree in
                           match r with
                           | Unwound l => let* _ := drop_ptr tkids 1 (fst a) in Ret (Unwound l)
                           | Done n (c1, _) =>
                               let* r := xins fuel n (e_key e) a c1 d degree in
                               match r with
                               | Unwound l => Ret (Unwound l)
                               | Done n (c2, _) => Ret (Done n (c2, true))
                               end
                           end))
                  | _ => Fail
                  end
         end)).
      { inversion Hc; subst; cbn [xn_insert]; rewrite Ei; reflexivity. }
      rewrite Etr. cbv zeta. clear Etr. apply bcap_blen in P as Pb.
      eapply (safe_seq _ _ _ 0 (2 * S r + 2 * cap + 2) _ _ (Tree (et a e) :: map Tree ts) []); [exact Sf|perm| |lia].
      intros [n1 r0|u] G' (-> & HF); rewrite app_nil_r.
      2:{ cbn [xfound] in HF.
          seqq 0 0 [Tree (et a e)] (map Tree ts) (fun (_ : unit) (G : list own) => G = []); [apply et_drop|].
          intros [] G ->. apply safe_ret. split; [lia|]. exists (HLeaf bk), ts. splits; trivial. apply upost_refl. }
      destruct HF as (Hn & Fo).
      assert (Er : is_some r0 = is_some o).
      { destruct o; cbn [found] in Fo; [now destruct Fo as (? & -> & _)|now subst]. }
      rewrite Er. destruct (is_some o).
      * inv H y Ey. destruct y as [bk' f']. injection H as <- <-.
        eapply safe_mono; [| |apply (xbk_insert_ok _ e (xtests_key e a Ea) n1 (e_hash e) d bk c ts bk' f' a cap Hc Ey Ea P)]; [lia|].
        intros x G. apply xleaves_mono; auto; lia.
      * inversion Hc as [|old x Ex|L l s ts' R1 R2]; subst; [|discriminate].
        inv H y Ey. destruct y as [n2 f1]. inv H z Ez. destruct z as [n3 f2]. injection H as <- <-.
        destruct fuel as [|fuel]; [discriminate|].
        pose proof (xins_empty fuel n1 d x old n2 f1 Ey Ex) as S1.
        destruct (ins_empty ubits dbg keq b fuel d x old n2 f1 Ey Ex) as (_ & s1 & -> & Ea1).
        eexists _, _. split; [apply lent_in; right; now left|]. fold (et old x).
        seqq 0 (2 * S r + 2 * cap + 2) [Tree (et old x)] [Tree (et a e); Tree (et old x)]
          (fun (_ : unit) (G : list own) => G = []); [apply et_drop|].
        intros [] G ->. cbn [app].
        apply (entry_lent _ old x); [apply lent_in; right; now left|]. cbn [fst].
        eapply (safe_seq _ _ _ 1 (1 + (2 * r + 2 * cap + 2)) _ _ [Tree (et old x)] [Tree (et a e)]); [exact S1|perm| |lia].
        intros r1 G1 (y & -> & c1 & ts1 & -> & Hc1 & ->).
        inversion Hc1 as [s0 s' ts' E1 E2 F| |]; subst. cbn [blen] in Hn.
        eapply (safe_seq _ _ _ (1 + (2 * r + 2 * cap + 2)) 0 _ _ (Tree (et a e) :: map Tree ts1) []); [|perm| |lia].
        { apply (xins_branch_ok r n1 d s1 s' ts1 e a fuel n3 f2 cap (2 * r + 2 * cap + 2) (r + 2 * cap)); trivial.
          - intros c0 cc tts n0 f0 T0 P0 H0 C0. apply (IH n1 (S d) c0 cc tts e a n0 f0 cap fuel); trivial. lia.
          - cbn [tall]. rewrite Ea1. constructor; [destruct r; exact I|constructor].
          - cbn [pcap]. intros i c0 _ Hg. unfold sa_get in Hg. rewrite Ea1 in Hg.
            inv Hg x1 Y1. inv Hg x2 Y2. destruct x2 as [j|]; [|discriminate]. inv Hg x3 Y3. injection Hg as ->.
            destruct j as [|[|j]]; try discriminate. injection Y3 as <-. destruct r; exact Hcap.
          - now repeat split. }
        intros [k2 [c2 y2]|[c2 fl]] G2 HX; rewrite app_nil_r; apply safe_ret.
        -- destruct HX as (Hk & c3 & ts3 & [= -> ->] & Hc2 & ->). split; [lia|]. exists c3, ts3. auto.
        -- destruct HX as (Hk & n4 & ts3 & Hc2 & -> & Hup). split; [lia|]. exists n4, ts3. splits; trivial.
           eapply (upost_split ubits dbg b Hb Hdeg Hub); [rewrite Ei; discriminate|exact Ey|exact Hup].
Qed.
End Insert.

Section Lookup.
Context {Q : Type}.
Variable borrow : K -> Q.
Variable qeq : Q -> Q -> bool.
Variable q : Q.
Variable h : N.
Notation m := (@matches K V Q borrow qeq q h).
Notation xm := (xmatches (V := V) (fun k => qeq (borrow k) q) h).

Lemma xtests_q : xtests xm m.
Proof using. exact (xmatches_ok (fun k => qeq (borrow k) q) h). Qed.

(** The bucket at the end of the path of [h] has at most [cap] entries. *)
Fixpoint gcap (r d : nat) (n : node) (cap : nat) : Prop :=
  match n with
  | HLeaf bk => blen bk <= cap
  | HBranch s =>
      match r with
      | 0 => True
      | S r' => forall i c, index_from_hash dbg h d degree = Ok (Some i) ->
          sa_get ubits dbg s i = Ok (Some c) -> gcap r' (S d) c cap
      end
  end.

Lemma pcap_gcap : forall r d n cap, pcp r d h n cap -> gcap r d n cap.
Proof using.
  clear Hb Hdeg Hub. induction r as [|r IH]; intros d n cap P; destruct n as [s|bk]; cbn [pcap gcap] in *; trivial; try now apply bcap_blen.
  intros i c Ei Es. apply IH. eapply P; eauto.
Qed.

Lemma lax_gcap : forall r d n es, lax ubits b r d n es -> d + r = D b -> gcap r d n (length es).
Proof using Hb Hdeg Hub.
  induction r as [|r IH]; intros d n es H Hd; destruct n as [s|[e|l]]; cbn [lax gcap blen] in *; try now subst.
  - destruct H as (_ & H). assert (E : l_len l = length es) by apply H. lia.
  - intros i c Ei Es. destruct H as (al & Hw & Hc).
    rewrite (index_ok ubits dbg b Hb Hdeg Hub) in Ei by lia.
    destruct (Nat.ltb_spec d (D b)) as [_|]; [|lia]. injection Ei as <-.
    destruct (sa_access ubits dbg (Hu0 ubits dbg b Hb Hdeg Hub) s al (idx b d h) Hw (idx_lt ubits dbg b Hb Hdeg Hub d h))
      as [(l1 & l2 & -> & B & Ab & Eg & _)|(l1 & c' & l2 & -> & B & Ab & Eg & _)]; rewrite Eg in Es; [discriminate|].
    injection Es as ->.
    destruct (lchl_focus _ _ (fun _ => false) _ _ _ _ _ Hc B Ab ltac:(discriminate)) as (es1 & ec & es2 & -> & _ & _ & _ & _ & Hr & _).
    specialize (IH (S d) c ec Hr ltac:(lia)).
    assert (Mono : forall r d n c1 c2, c1 <= c2 -> gcap r d n c1 -> gcap r d n c2).
    { clear. induction r as [|r IH]; intros d n c1 c2 L; destruct n as [s|bk]; cbn [gcap]; intros; try lia; trivial. eauto. }
    eapply Mono; [|exact IH]. rewrite !app_length. lia.
Qed.

Lemma xn_get_ok : forall fuel n r nd c ts (G : list own) d cap o, ncont nd c ts -> (forall t, In t ts -> lent t G) ->
  tall r nd -> gcap r d nd cap ->
  hn_get ubits dbg borrow qeq fuel q h nd d degree = Ok o ->
  safe 0 (xn_get ubits dbg borrow qeq fuel n q h c d degree) G (fun r G' => G' = G /\ xfound cap n G o r).
Proof using.
  clear Hb Hdeg Hub. induction fuel as [|fuel IH]; intros n r nd c ts G d cap o Hc HG T P H; [discriminate|]. destruct nd as [s|bk].
  - destruct r as [|r]; [destruct T|]. cbn [tall gcap] in T, P.
    inversion Hc as [s0 s' ts' E1 E2 F| |]; subst. cbn [hn_get xn_get] in *.
    inv H oi Ei. rewrite Ei. inv H i Eu. cbn [lift pbind]. rewrite Eu. cbn [lift pbind].
    assert (oi = Some i) by (destruct oi; cbn in Eu; congruence). subst oi.
    inv H g Eg. assert (S : sim s s' ts) by now repeat split.
    pose proof (sim_get _ _ _ _ _ _ _ S Eg) as Sg. destruct g as [n0|].
    + destruct Sg as (t & It & Ht & Eg'). rewrite Eg'. cbn [lift pbind].
      inversion Ht as [n1 p cc tts Hc']; subst. cbn [pa].
      assert (Lt := HG _ It). eexists _, _. split; [exact Lt|]. intros _.
      apply (IH n r n0 cc tts); trivial.
      * intros u Iu. eapply lent_kid; eauto.
      * unfold sa_get in Eg. inv Eg x1 Y1. inv Eg x2 Y2. destruct x2 as [j|]; [|discriminate]. inv Eg x3 Y3. injection Eg as ->.
        destruct (nth_error (sa_array s) j) eqn:En; [|discriminate]. injection Y3 as ->.
        rewrite Forall_forall in T. apply T. eapply nth_error_In; eauto.
      * eapply P; eauto.
    + rewrite Sg. cbn [lift pbind]. injection H as <-. apply safe_ret. split; [reflexivity|]. split; [lia|reflexivity].
  - cbn [hn_get gcap] in H, P. destruct r; cbn [gcap] in P.
    1, 2: assert (X := xbk_find_ok _ _ xtests_q n bk c ts G o Hc HG H);
      (eapply safe_mono; [apply le_n| |inversion Hc; subst; exact X]);
      intros [k y|u] G' (-> & Hf); (split; [reflexivity|]); cbn [xfound] in *; [destruct Hf; split; [lia|trivial]|lia].
Qed.

(** ** Mutable lookup *)
Lemma rf_perm : forall s x, find m s = Some x -> Permutation (x :: rf m s) s.
Proof using.
  intros s x E. destruct (find_split m s x E) as (s1 & s2 & -> & N1 & M). rewrite rf_split by trivial.
  apply Permutation_middle.
Qed.

Lemma xbk_get_mut_ok : forall g n d bk c ts bk' f cap, ncont (HLeaf bk) c ts ->
  b_get_mut borrow qeq q h g bk = Ok (bk', f) -> bcap bk cap ->
  safe (2 * cap + 5) (xbk_get_mut xm g n c) (map Tree ts) (xleaves (cap + 2) n (upost h d (HLeaf bk)) f (HLeaf bk')).
Proof using dbg Hb Hdeg Hub.
  intros g n d bk c ts bk' f cap Hc E Hcap.
  inversion Hc as [|o x Ex|L l s ts' R1 R2]; subst; cbn [xbk_get_mut b_get_mut bcap] in *.
  - assert (Stay : forall n1, n1 < cap + 2 -> xleaves (cap + 2) n1 (upost h d (HLeaf (BSingle x))) f (HLeaf bk') (Unwound (TS o, false)) [Tree (et o x)]).
    { intros n1 Hn1. split; [exact Hn1|]. exists (HLeaf (BSingle x)), [et o x]. splits; trivial. apply upost_refl. }
    apply (xtests_seq _ xm m n o x); trivial; [apply xtests_q|apply lent_in; now left| |].
    { intros ->. apply safe_ret. apply Stay. lia. }
    intros n' Hn. destruct (m x).
    + injection E as <- <-.
      eapply (safe_seq _ _ _ 1 0 _ _ [Tree (et o x)] []); [apply (xtentry_mut_ok n' (fst o) (TE (e_key x, e_val x)))|perm| |lia].
      intros [k [a' c']|u] G H.
      * destruct H as (-> & -> & Hk). cbn [app]. exists [], []. splits; trivial.
        apply safe_ret. split; [lia|]. exists (TS (a', snd o)), [et (a', snd o) (e_write g x)]. splits; trivial. now constructor.
      * destruct H as (Hk & ->). rewrite app_nil_r. apply safe_ret. apply Stay. lia.
    + injection E as <- <-. apply safe_ret. split; [lia|]. exists (TS o), [et o x]. splits; trivial.
  - destruct (lrf_value m l s R1) as (l' & El & Rl). rewrite El in E. cbn [bind] in E.
    assert (Els : l_len l = length s) by apply R1.
    eapply (safe_seq _ _ _ (2 * length s) 5 _ _ (map (@Tree C) ts) []);
      [apply (xlist_remove_first_ok xm m xtests_q n L s _ R2)|perm| |lia].
    intros [n1 [L' rm]|L'] G' H; rewrite app_nil_r.
    2:{ destruct H as (Hn & s1 & y & s2 & -> & R3). apply safe_ret. eapply unwound_cut; eauto. lia. }
    destruct H as (Hn1 & G1 & RL & Hf). cbn [fst snd] in RL, Hf.
    pose proof (rf_length m s) as Hlen.
    destruct (find m s) as [x|] eqn:Ef.
    + destruct Hf as (o & -> & Eo & ->). cbn [is_some] in Hlen.
      pose proof (rf_perm s x Ef) as Prf.
      pose proof (l_rep_push l' _ x Rl) as Rp. unfold l_push_front_mut in E. rewrite (l_rep_first _ _ Rp) in E.
      cbn [hd_error option_map] in E. injection E as <- <-.
      seqq 2 3 (Tree (et o x) :: G1) (@nil own) (fun L2 G' => trep L2 (x :: rf m s) G').
      { now apply tl_push_ok. }
      intros L2 G2 (us & tl & -> & Ch & Lt & ->). rewrite app_nil_r.
      inversion Ch as [|x' s' t us' a Et Ch']; subst. destruct Et as [v e ts1 (-> & Ee)].
      cbn [hl_head HeapList.hl_last hl_len map hd_error pa app].
      seqq 1 2 [Tree (PT a (TLN v (hd_error (map pa us'))) (PT v (TLE e) [et e x] :: us'))] (map (@Tree C) tl)
        (fun r (G : list own) => exists a', r = (a', @TLN K V v (hd_error (map pa us'))) /\
           G = Held a' :: map (@Tree C) (PT v (TLE e) [et e x] :: us'));
        [exact (safe_make_mut tkids a (TLN v (hd_error (map pa us'))) (PT v (TLE e) [et e x] :: us'))|].
      intros r G (a' & -> & ->). cbn [map].
      seqq 1 1 [Tree (PT v (TLE e) [et e x])] (Held a' :: map (@Tree C) us' ++ map (@Tree C) tl)
        (fun r (G : list own) => exists v', r = (v', @TLE K V e) /\ G = Held v' :: map (@Tree C) [et e x]);
        [exact (safe_make_mut tkids v (TLE e) [et e x])|].
      intros r G (v' & -> & ->). cbn [map].
      (* the list with its first entry replaced *)
      assert (Put : forall p' (x' : entry), e_hash x' = e_hash x ->
        let nd := PT a' (TLN v' (hd_error (map pa us'))) (PT v' (TLE (p', snd e)) [et (p', snd e) x'] :: us') in
        trep (mkHL (Some a') (hd_error (map pa tl)) (length (x :: rf m s))) (x' :: rf m s) (map Tree ([nd] ++ tl))).
      { intros p' x' Ex' nd. exists [nd], tl. splits.
        - reflexivity.
        - apply (ch_cons TLN TLE terep x' (rf m s) (PT v' (TLE (p', snd e)) [et (p', snd e) x']) us' a'); trivial.
          constructor. split; [trivial|]. cbn [snd]. now rewrite Ee.
        - rewrite last_error_cons in *. destruct (rf m s); [cbn [length] in Hlen; lia|].
          destruct Lt as [|z0 q0 Eq0 En]; [discriminate|]. constructor; [trivial|]. inversion Ch'; subst us'.
          inversion En; subst. now constructor.
        - reflexivity. }
      eapply (safe_seq _ _ _ 1 0 _ _ [Tree (et e x)] (Held v' :: Held a' :: map (@Tree C) us' ++ map (@Tree C) tl));
        [apply (xtentry_mut_ok n1 (fst e) (TE (e_key x, e_val x)))|perm| |lia].
      intros [k [p' c']|u] G H.
      * destruct H as (-> & -> & Hk). cbn [app].
        set (x' := e_write g x). set (e' := (p', snd e)).
        exists [], (Held v' :: Held a' :: map Tree us' ++ map Tree tl). splits; [perm|trivial|].
        exists [et e' x'], (Held a' :: map Tree us' ++ map Tree tl). splits; [unfold et, e', x'; cbn; perm|trivial|].
        exists (PT v' (TLE e') [et e' x'] :: us'), (map Tree tl). splits; [cbn [map]; perm| |].
        { cbn [tkids map pa]. f_equal. apply (chain_opt _ _ _ _ _ Ch'). }
        set (nd := PT a' (TLN v' (hd_error (map pa us'))) (PT v' (TLE e') [et e' x'] :: us')).
        exists (map Tree ([nd] ++ tl)). split; [perm|]. split; [lia|].
        apply leaves_coll with (s := x' :: rf m s).
        -- destruct Rl as (P1 & P2 & P3). repeat split; cbn [l_head ListModel.l_last l_length length].
           ++ now rewrite P1.
           ++ rewrite P2, P3. destruct (rf m s) as [|y fs']; [cbn [length] in Hlen; lia|]. reflexivity.
           ++ rewrite P3. lia.
        -- exact (Put p' x' eq_refl).
      * destruct H as (Hk & ->). cbn [app].
        exists [et e x], (Held a' :: map Tree us' ++ map Tree tl). splits; [unfold et; cbn; perm|trivial|].
        exists (PT v' (TLE e) [et e x] :: us'), (map Tree tl). splits; [cbn [map]; perm| |].
        { cbn [tkids map pa]. f_equal. apply (chain_opt _ _ _ _ _ Ch'). }
        specialize (Put (fst e) x eq_refl). rewrite <- surjective_pairing in Put. cbv zeta in Put.
        set (nd := PT a' (TLN v' (hd_error (map pa us'))) (PT v' (TLE e) [et e x] :: us')) in *.
        exists (map Tree ([nd] ++ tl)). split; [perm|]. split; [lia|].
        exists (HLeaf (BCollision (cutl (x :: rf m s)))), ([nd] ++ tl). splits; trivial.
        -- apply nc_coll with (s := x :: rf m s); [apply cutl_rep|exact Put].
        -- eapply upost_perm; [exact R1|apply cutl_rep|exact Prf].
    + destruct Hf as (-> & ->). injection E as <- <-. apply safe_ret. split; [lia|].
      now apply leaves_coll with (s := rf m s).
Qed.

Lemma xn_get_mut_ok : forall g r n d nd c ts n' f cap fuel, tall r nd -> pcp r d h nd cap ->
  hn_get_mut ubits dbg borrow qeq fuel q h g nd d degree = Ok (n', f) -> ncont nd c ts ->
  safe (r + 2 * cap + 5) (xn_get_mut ubits dbg borrow qeq fuel n q h g c d degree) (map Tree ts)
    (xleaves (cap + 2) n (upost h d nd) f n').
Proof using Hb Hdeg Hub.
  intros g. induction r as [|r IH]; intros n d nd c ts n' f cap fuel T P H Hc; (destruct fuel as [|fuel]; [discriminate|]);
    destruct nd as [s|bk]; try (destruct T; fail).
  1, 3: cbn [hn_get_mut pcap] in *; inv H y Ey; destruct y as [bk' f']; injection H as <- <-;
    (eapply safe_mono; [| |enough (X : safe (2 * cap + 5) (xbk_get_mut xm g n c) (map Tree ts)
        (xleaves (cap + 2) n (upost h d (HLeaf bk)) f' (HLeaf bk')));
      [inversion Hc; subst; exact X|now apply xbk_get_mut_ok]]; [lia|trivial]).
  inversion Hc as [s0 s' ts' E1 E2 F| |]; subst. cbn [hn_get_mut xn_get_mut tall pcap] in *.
  inv H oi Ei. rewrite Ei. inv H i Eu. cbn [lift pbind]. rewrite Eu. cbn [lift pbind].
  assert (oi = Some i) by (destruct oi; cbn in Eu; congruence). subst oi.
  inv H y Eg. assert (S : sim s s' ts) by now repeat split. pose proof (sim_get_mut _ _ _ _ _ _ _ S Eg) as Sg.
  destruct y as [[m0 w]|].
  - destruct Sg as (Hg & ts1 & t & ts2 & w' & -> & Ht & Eg' & Hw & _ & Harr).
    rewrite Eg'. cbn [lift pbind]. inv H y Ey. destruct y as [c' f']. injection H as <- <-.
    inversion Ht as [n1 p cc tts Hc']; subst. cbn [pa].
    seqq 1 (r + 2 * cap + 5) [Tree (PT p cc tts)] (map Tree (ts1 ++ ts2))
      (fun r G => exists a', r = (a', cc) /\ G = Held a' :: map Tree tts).
    { eapply tmake_mut_ok; eauto. }
    intros r0 G' (p' & -> & ->).
    assert (Tn : tall r m0).
    { destruct (Harr m0) as (l1 & l2 & E3 & _). rewrite E3 in T. rewrite Forall_forall in T. apply T, in_elt. }
    eapply (safe_seq _ _ _ (r + 2 * cap + 5) 0 _ _ (map Tree tts) (Held p' :: map Tree (ts1 ++ ts2)));
      [apply (IH n (Datatypes.S d) m0 cc tts c' f' cap fuel); trivial; exact (P _ _ Ei Hg)|perm| |lia].
    intros [k1 [c1 y1]|[c1 fl]] G1 HX.
    + destruct HX as (Hn & c2 & ts' & [= -> ->] & Hc1 & ->).
      exists ts', (map Tree (ts1 ++ ts2)). split; [perm|]. split; [eapply ncont_kids; eauto|].
      exists (map Tree (ts1 ++ PT p' c2 ts' :: ts2)). split; [perm|]. split; [exact Hn|].
      exists (TB (w' p')), (ts1 ++ PT p' c2 ts' :: ts2). splits; trivial.
      apply sim_cont. apply (Hw c' (PT p' c2 ts')). now constructor.
    + destruct HX as (Hn & n'' & ts' & Hc1 & -> & Hup).
      exists ts', (map Tree (ts1 ++ ts2)). split; [perm|]. split; [eapply ncont_kids; eauto|].
      exists (map Tree (ts1 ++ PT p' c1 ts' :: ts2)). split; [perm|]. split; [exact Hn|].
      exists (HBranch (w n'')), (ts1 ++ PT p' c1 ts' :: ts2). splits; trivial.
      * apply sim_cont. apply (Hw n'' (PT p' c1 ts')). now constructor.
      * eapply (upost_branch ubits dbg b Hb Hdeg Hub); eauto.
  - rewrite Sg. cbn [lift pbind]. injection H as <- <-. apply safe_ret. split; [lia|]. exists (TB s'), ts. auto.
Qed.

(** ** Removal *)
Lemma xbk_remove_ok : forall n d bk c ts obk f cap, ncont (HLeaf bk) c ts ->
  b_remove borrow qeq q h bk = Ok (obk, f) -> bcap bk cap ->
  safe (2 * cap) (xbk_remove xm n c) (map Tree ts)
    (fun r G => match r with
                | Done k r => k <= n <= k + cap /\
                    match obk with
                    | None => r = (None, f) /\ G = map Tree ts /\ exists e x, c = TS e /\ ts = [et e x]
                    | Some bk' => exists c' ts', r = (Some c', f) /\ ncont (HLeaf bk') c' ts' /\ G = map Tree ts'
                    end
                | Unwound (c, fl) => n < cap /\ exists n'' ts, ncont n'' c ts /\ G = map Tree ts /\ upost h d (HLeaf bk) fl n''
                end).
Proof using dbg Hb Hdeg Hub.
  intros n d bk c ts obk f cap Hc E Hcap.
  inversion Hc as [|o x Ex|L l s ts' R1 R2]; subst; cbn [xbk_remove b_remove bcap] in *.
  - apply (xtests_seq _ xm m n o x); trivial; [apply xtests_q|apply lent_in; now left| |].
    { intros ->. apply safe_ret. split; [lia|]. exists (HLeaf (BSingle x)), [et o x]. splits; trivial. apply upost_refl. }
    intros n' Hn. apply safe_ret. split; [lia|]. destruct (m x); injection E as <- <-.
    + splits; trivial. eauto.
    + exists (TS o), [et o x]. splits; trivial.
  - destruct (lrf_value m l s R1) as (l' & El & Rl). rewrite El in E. cbn [bind] in E.
    assert (Els : l_len l = length s) by apply R1.
    eapply (safe_seq _ _ _ (2 * length s) 0 _ _ (map (@Tree C) ts) []);
      [apply (xlist_remove_first_ok xm m xtests_q n L s _ R2)|perm| |lia].
    intros [n1 [L' rm]|L'] G' H; rewrite app_nil_r.
    2:{ destruct H as (Hn & s1 & y & s2 & -> & R3). apply safe_ret.
        eapply (unwound_cut cap n h d l s1 y s2 L' tt (HLeaf (BCollision l))); eauto. lia. }
    destruct H as (Hn1 & G1 & RL & Hf). cbn [fst snd] in RL, Hf.
    seqq 0 0 G' (@nil own) (fun (_ : unit) G => G = G1 /\ is_some rm = is_some (find m s)).
    { destruct (find m s) as [x|].
      - destruct Hf as (o & -> & Eo & ->).
        apply (safe_frame tkids _ 0 0 _ [Tree (et o x)] G1 (fun _ G => G = [])); [apply et_drop|perm| |lia].
        intros [] G2 ->. exists G1. cbn [app is_some]. auto.
      - destruct Hf as (-> & ->). apply safe_ret. auto. }
    intros [] G2 (-> & Er). rewrite app_nil_r. cbv beta.
    assert (Er' : @is_some hewh rm = is_some (find m s)) by exact Er. rewrite !Er'.
    assert (El' : l_len l' = length (rf m s)) by apply Rl. rewrite El' in E. rewrite (hl_len_rep _ _ _ RL).
    destruct (rf m s) as [|y [|z s2]] eqn:Erf; cbn [length] in *; [discriminate| |].
    + rewrite (l_rep_first _ _ Rl) in E. cbn [hd_error unwrap bind] in E. injection E as <- <-.
      destruct (tfirst_lent L' y [] G1 RL) as (e & Ee & Le & First).
      apply (First _ _ 0 []). cbn [app]. eexists _, _. split; [exact Le|]. fold (et e y).
      seqq 0 0 G1 [Tree (et e y)] (fun (_ : unit) (G : list own) => G = []); [eapply tl_drop_ok; eauto|].
      intros [] G ->. apply safe_ret. split; [lia|]. exists (TS e), [et e y]. splits; trivial. now constructor.
    + injection E as <- <-. apply safe_ret. split; [lia|]. destruct (trep_trees _ _ _ RL) as (us & ->).
      exists (TC L'), us. splits; trivial. now apply nc_coll with (s := y :: z :: s2).
Qed.

Lemma xn_remove_ok : forall r n d nd es c ts n' f cap fuel, wrep r d nd es -> d + r = D b -> r < fuel ->
  (es <> [] \/ nd = new_empty_branch) -> uniq m es -> pcp r d h nd cap ->
  hn_remove ubits dbg borrow qeq fuel q h nd d degree = Ok (n', f) -> ncont nd c ts ->
  safe (2 * r + 2 * cap) (xn_remove ubits dbg borrow qeq fuel n q h c d degree) (map Tree ts)
    (xleaves cap n (upost h d nd) f n').
Proof using Hb Hdeg Hub.
  induction r as [|r IH]; intros n d nd es c ts n' f cap fuel Hr Hd Lf Hne Hu P H Hc; (destruct fuel as [|fuel]; [discriminate|]);
    destruct nd as [s|bk]; try (destruct Hr; fail).
  1, 3: cbn [hn_remove pcap] in *; inv H y Ey; destruct y as [obk f']; injection H as <- <-.
  1, 2: eapply safe_mono with (n := 2 * cap) (Q := xleaves cap n (upost h d (HLeaf bk)) f' match obk with Some b' => HLeaf b' | None => new_empty_branch end);
    [lia|trivial|].
  1, 2: assert (X := xbk_remove_ok n d bk c ts obk f' cap Hc Ey P).
  1, 2: assert (Y : safe (2 * cap) (let* r := xbk_remove xm n c in
          match r with
          | Unwound l => Ret (Unwound l)
          | Done n (Some c', removed) => Ret (Done n (c', removed))
          | Done n (None, removed) =>
              let* _ := tglue (fun _ => Fail) c in Ret (Done n (TB sa_new, removed))
          end) (map Tree ts) (xleaves cap n (upost h d (HLeaf bk)) f' match obk with Some b' => HLeaf b' | None => new_empty_branch end));
     [|inversion Hc; subst; exact Y].
  1, 2: eapply (safe_seq _ _ _ (2 * cap) 0 _ _ (map Tree ts) []); [exact X|perm| |lia];
    intros [k1 [oc rm]|[c1 fl]] G HG; rewrite app_nil_r; [|apply safe_ret; exact HG];
    destruct HG as (Hk & HG); destruct obk as [bk'|];
    [destruct HG as (c' & ts' & [= -> ->] & Hc' & ->); apply safe_ret; split; [exact Hk|]; exists c', ts'; auto
    |destruct HG as ([= -> ->] & -> & e & x & -> & ->); cbn [tglue];
     seqq 0 0 [Tree (et e x)] (@nil own) (fun (_ : unit) (G : list own) => G = []); [apply et_drop|];
     intros [] G ->; apply safe_ret; split; [exact Hk|]; exists (TB sa_new), []; splits; trivial; apply sim_cont, sim_new].
  inversion Hc as [s0 s' ts' E1 E2 F| |]; subst.
  pose proof Hr as Hr0. cbn [hrepg] in Hr. destruct Hr as (al & Hw & Hch).
  cbn [hn_remove xn_remove pcap] in *.
  pose proof (index_ok ubits dbg b Hb Hdeg Hub h d ltac:(lia)) as Ei.
  rewrite Ei in *. destruct (Nat.ltb_spec d (D b)); [|lia].
  cbn [bind unwrap lift pbind] in *.
  assert (S : sim s s' ts) by now repeat split.
  assert (Hm : forall e, m e = true -> idx b d (e_hash e) = idx b d h).
  { intros e He. unfold matches in He. apply andb_true_iff in He as [He _]. apply N.eqb_eq in He. now rewrite He. }
  pose proof (Hu0 ubits dbg b Hb Hdeg Hub) as HU.
  pose proof (idx_lt ubits dbg b Hb Hdeg Hub d h) as Hi.
  destruct (sa_access ubits dbg HU s al (idx b d h) Hw Hi)
    as [(l1 & l2 & -> & B & A & _ & Eg & _)|(l1 & c0 & l2 & -> & B & A & _ & (w & Eg & Hset) & _)];
    rewrite Eg in H; cbn [bind] in H; pose proof (sim_get_mut _ _ _ _ _ _ _ S Eg) as Sg; cbv beta iota in Sg.
  { rewrite Sg. cbn [lift pbind]. injection H as <- <-. apply safe_ret. split; [lia|]. exists (TB s'), ts. auto. }
  destruct Sg as (Hg & ts1 & t & ts2 & w' & -> & Ht & Eg' & Hwr & Hrm & _).
  rewrite Eg'. cbn [lift pbind].
  destruct (chl_focus ubits dbg b Hb Hdeg Hub _ _ m _ _ _ _ _ Hch B A Hm) as (es1 & ec & es2 & -> & N1 & N2 & C1 & C2 & Hrc & Hnec & Hdg & Hbr).
  assert (Uc := uniq_focus _ _ _ _ Hu).
  inv H y Ey. destruct y as [c' f'].
  destruct (hn_remove_ok ubits dbg b Hb Hdeg Hub borrow qeq q h r (Datatypes.S d) c0 ec fuel Hrc ltac:(lia) ltac:(lia) (or_introl Hnec) Uc)
    as (c'' & Ey' & Hcase & _). rewrite Ey in Ey'. injection Ey' as <- Ef'. cbv zeta in Hcase.
  inversion Ht as [n1 p cc tts Hcc]; subst n1 t. cbn [pa].
  seqq 1 (2 * r + 2 * cap + 1) [Tree (PT p cc tts)] (map Tree (ts1 ++ ts2))
      (fun r G => exists a', r = (a', cc) /\ G = Held a' :: map Tree tts).
  { eapply tmake_mut_ok; eauto. }
  intros r0 G' (p' & -> & ->).
  eapply (safe_seq _ _ _ (2 * r + 2 * cap) 1 _ _ (map Tree tts) (Held p' :: map Tree (ts1 ++ ts2))); [|perm| |lia].
  { apply (IH n (Datatypes.S d) c0 ec cc tts c' f' cap fuel); trivial; try lia; [now left|].
    apply (P (idx b d h)); trivial. }
  intros [k1 [c1 y1]|[c1 fl]] G1 HX.
  2:{ destruct HX as (Hn & n'' & ts' & Hc1 & -> & Hup).
      exists ts', (map Tree (ts1 ++ ts2)). split; [perm|]. split; [eapply ncont_kids; eauto|].
      exists (map Tree (ts1 ++ PT p' c1 ts' :: ts2)). split; [perm|]. split; [exact Hn|].
      exists (HBranch (w n'')), (ts1 ++ PT p' c1 ts' :: ts2). splits; trivial.
      - apply sim_cont. apply (Hwr n'' (PT p' c1 ts')). now constructor.
      - eapply (upost_branch ubits dbg b Hb Hdeg Hub); eauto. }
  destruct HX as (Hk & c2 & ts' & [= -> ->] & Hc1 & ->). rename c2 into c1.
  inv H emp Ee. rewrite (tn_is_empty_ok _ _ _ _ _ Hc1 Ee). cbn [pbind].
  exists ts', (map Tree (ts1 ++ ts2)). split; [perm|]. split; [eapply ncont_kids; eauto|].
  set (u := PT p' c1 ts').
  assert (Hu' : ntree c' u) by now constructor.
  assert (Sw := Hwr c' u Hu'). cbn [pa u] in Sw.
  assert (Nof : forall x : bool, safe 1 (Ret (Done k1 (TB (w' p'), x))) (Tree u :: map Tree (ts1 ++ ts2))
    (xleaves cap n (upost h d (HBranch s)) x (HBranch (w c')))).
  { intros x. exists (map Tree (ts1 ++ u :: ts2)). split; [perm|]. split; [exact Hk|].
    exists (TB (w' p')), (ts1 ++ u :: ts2). splits; trivial. now apply sim_cont. }
  destruct f'; [|destruct emp; injection H as <- <-; apply Nof].
  destruct emp.
  - inv H s2 Es. inv H n2 En. injection H as <- <-.
    destruct (Hrm c' p' s2 Es) as (s2' & Es' & S2). rewrite Es'. cbn [lift pbind].
    assert (Ec' : c' = new_empty_branch).
    { destruct Hcase as [(_ & ->)|(Hx & Hy)]; [trivial|].
      rewrite (hn_is_empty_ok ubits dbg b Hb Hdeg Hub r (Datatypes.S d) c' _ Hx Hy) in Ee. discriminate. }
    seqq 0 1 [Tree u] (map Tree (ts1 ++ ts2)) (fun (_ : unit) (G : list own) => G = []).
    { apply (tdrop_empty sa_new u); trivial. now rewrite Ec' in Hu'. }
    intros [] G ->. cbn [app].
    assert (Hl : length (sa_array s2) = sa_size s2).
    { destruct (sa_access ubits dbg HU _ _ (idx b d h) (Hset c') Hi)
        as [(k3 & k2 & E3 & _ & _ & _ & _ & Er & _)|(k3 & c2 & k2 & E3 & _ & _ & _ & _ & (s3 & Er & W3) & _)];
        rewrite Er in Es; injection Es as <-.
      - eapply (wf_size ubits dbg b Hb Hdeg Hub). apply Hset.
      - eapply (wf_size ubits dbg b Hb Hdeg Hub). exact W3. }
    seqq 1 0 (map Tree (ts1 ++ ts2)) (@nil own) (fun c G => exists us, ncont n2 c us /\ G = map Tree us).
    { now apply tn_compress_ok with (s := s2). }
    intros c2 G (us & Hc2 & ->). rewrite app_nil_r. apply safe_ret. split; [exact Hk|]. exists c2, us. auto.
  - inv H n2 En. injection H as <- <-.
    seqq 1 0 (map Tree (ts1 ++ u :: ts2)) (@nil own) (fun c G => exists us, ncont n2 c us /\ G = map Tree us).
    { apply tn_compress_ok with (s := w c'); trivial. eapply (wf_size ubits dbg b Hb Hdeg Hub). apply Hset. }
    intros c2 G (us & Hc2 & ->). rewrite app_nil_r. apply safe_ret. split; [exact Hk|]. exists c2, us. auto.
Qed.
End Lookup.
End Nodes.
