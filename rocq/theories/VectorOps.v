(** Vector operations refine operations on a plain sequence. *)
From Coq Require Import List NArith ZArith Arith Bool Lia.
From Verif Require Import Base Spec Sim VectorModel VectorProofs.
Import ListNotations.
Local Open Scope N_scope.

Section VO.
Variable ubits : N.
Variable dbg : bool.
Variable bits : N.
Hypothesis Hu : 8 <= ubits.
Hypothesis Hb : 0 < bits.
Hypothesis Hbu : bits < ubits.
Context {T : Type}.

Notation limit := (vec_limit ubits dbg bits).
Notation dp := (VectorProofs.dp bits).
Notation hspec := (VectorProofs.hspec bits).
Notation rep := (VectorProofs.rep bits).

(** The vector [v] represents the sequence [l]. *)
Definition v_rep (v : rvec T) (l : list T) : Prop :=
  v_bits v = bits /\ v_length v = len l /\
  exists h, hspec (len l) (N.of_nat h) /\ rep h (v_root v) l.

Lemma v_rep_new : forall v, v_new_with_bits bits = Ok v -> v_rep v [].
Proof.
  intros v H. unfold v_new_with_bits in H. destruct (N.ltb_spec 0 bits); [|lia].
  injection H as <-. repeat split. exists 0%nat. split.
  - left. cbn. lia.
  - split; [reflexivity|]. cbn. pose proof (dp_pos ubits dbg bits Hu Hb Hbu 1). lia.
Qed.

Lemma v_height_rep : forall v l, v_rep v l -> len l < 2 ^ ubits ->
  exists h, v_height ubits dbg v = Ok (N.of_nat h) /\ hspec (len l) (N.of_nat h) /\ rep h (v_root v) l.
Proof.
  intros v l (Hv & Hl & h & Hs & Hr) Hlt. exists h.
  destruct (height_ok ubits dbg bits Hu Hb Hbu v Hv) as (h' & E & Hs'); [now rewrite Hl|].
  rewrite Hl in Hs'. rewrite (hspec_unique ubits dbg bits Hu Hb Hbu _ _ _ Hs' Hs) in E. auto.
Qed.

Lemma to_nat_fuel : forall (v : rvec T) h, v_fuel v (N.of_nat h) = (S h + vdepth (v_root v))%nat.
Proof. intros. unfold v_fuel. now rewrite Nat2N.id. Qed.

Lemma leb_lt : forall a b, a < b -> (b <=? a) = false.
Proof. intros. apply N.leb_gt. assumption. Qed.

Lemma in_range_lt : forall A i (l : list A), in_range i l = (i <? len l).
Proof. reflexivity. Qed.

Lemma v_get_ok : forall v l i, v_rep v l -> len l < 2 ^ ubits -> v_get ubits dbg v i = Ok (at_N l i).
Proof.
  intros v l i Hr Hlt. unfold v_get, at_N. rewrite in_range_lt.
  pose proof Hr as (Hv & Hl & _). rewrite Hl.
  destruct (N.leb_spec (len l) i) as [H|H].
  - destruct (N.ltb_spec i (len l)); [lia|reflexivity].
  - destruct (N.ltb_spec i (len l)) as [_|]; [|lia].
    destruct (v_height_rep v l Hr Hlt) as (h & E & Hs & Hrep).
    rewrite E. cbn [bind]. rewrite to_nat_fuel, Hv.
    assert (Hm : i mod dp (N.of_nat h + 1) = i).
    { apply N.mod_small. pose proof (hspec_cap ubits dbg bits Hu Hb Hbu _ _ Hs). lia. }
    destruct (rep_get_x ubits dbg bits Hu Hb Hbu h (v_root v) l i (vdepth (v_root v)) Hrep) as (x & Ex & En).
    + exact (hspec_shift ubits dbg bits Hu Hb Hbu _ _ Hlt Hs).
    + now rewrite Hm.
    + rewrite Ex. cbn [bind]. rewrite Hm in En. now rewrite En.
Qed.

Lemma v_first_ok : forall v l, v_rep v l -> len l < 2 ^ ubits -> v_first ubits dbg v = Ok (hd_error l).
Proof.
  intros v l Hr Hlt. unfold v_first. rewrite (v_get_ok v l 0 Hr Hlt). f_equal.
  destruct l; reflexivity.
Qed.

Lemma v_last_ok : forall v l, v_rep v l -> len l < 2 ^ ubits -> v_last ubits dbg v = Ok (last_error l).
Proof.
  intros v l Hr Hlt. unfold v_last. pose proof Hr as (_ & Hl & _). rewrite Hl.
  destruct l as [|x l] using rev_ind; [reflexivity|].
  destruct (N.eqb_spec (len (l ++ [x])) 0) as [E|_]; [rewrite len_app, len_cons in E; lia|].
  rewrite (v_get_ok _ _ _ Hr Hlt). f_equal. unfold at_N. rewrite in_range_lt.
  rewrite last_error_app. rewrite len_app, len_cons, len_nil.
  destruct (N.ltb_spec (len l + (0 + 1) - 1) (len l + (0 + 1))); [|lia].
  replace (N.to_nat (len l + (0 + 1) - 1)) with (length l) by (unfold len; lia).
  apply nth_error_focus.
Qed.

Lemma v_get_mut_ok : forall v l i f, v_rep v l -> len l < 2 ^ ubits ->
  exists v', v_get_mut ubits dbg v i f = Ok (v', in_range i l) /\ v_rep v' (map_at_N f i l).
Proof.
  intros v l i f Hr Hlt. unfold v_get_mut, map_at_N. rewrite in_range_lt.
  pose proof Hr as (Hv & Hl & _). rewrite Hl.
  destruct (N.leb_spec (len l) i) as [H|H].
  - destruct (N.ltb_spec i (len l)); [lia|]. eauto.
  - destruct (N.ltb_spec i (len l)) as [_|]; [|lia].
    destruct (v_height_rep v l Hr Hlt) as (h & E & Hs & Hrep).
    rewrite E. cbn [bind]. rewrite to_nat_fuel, Hv.
    assert (Hm : i mod dp (N.of_nat h + 1) = i).
    { apply N.mod_small. pose proof (hspec_cap ubits dbg bits Hu Hb Hbu _ _ Hs). lia. }
    destruct (rep_get_mut_x ubits dbg bits Hu Hb Hbu h (v_root v) l i f (vdepth (v_root v)) Hrep) as (n' & Ex & Hn').
    + exact (hspec_shift ubits dbg bits Hu Hb Hbu _ _ Hlt Hs).
    + now rewrite Hm.
    + rewrite Ex. cbn [bind]. eexists. split; [reflexivity|]. rewrite Hm in Hn'.
      assert (Hlen : len (map_at f (N.to_nat i) l) = len l) by (unfold len; now rewrite map_at_length).
      repeat split; cbn; [now rewrite Hlen|]. exists h. rewrite Hlen. auto.
Qed.

Lemma map_at_empty : forall v l i f, v_rep v l -> in_range i l = false -> v_rep v (map_at_N f i l).
Proof. intros v l i f H E. unfold map_at_N. now rewrite E. Qed.

(** [assoc] within the capacity, on existing positions. *)
Lemma v_assoc_set_ok : forall v l i x, v_rep v l -> len l <= limit -> i < len l ->
  exists v', v_assoc ubits dbg v i x = Ok v' /\ v_rep v' (map_at (fun _ => x) (N.to_nat i) l).
Proof.
  intros v l i x Hr Hlim Hi. pose proof (limit_lt ubits dbg bits Hu Hb Hbu) as HL.
  assert (Hlt : len l < 2 ^ ubits) by lia.
  pose proof Hr as (Hv & Hl & _).
  destruct (v_height_rep v l Hr Hlt) as (h & E & Hs & Hrep).
  assert (Hcap := hspec_cap ubits dbg bits Hu Hb Hbu _ _ Hs).
  unfold v_assoc.
  assert (Hda : (if dbg then let! c := v_root_max_capacity ubits dbg v in debug_assert dbg (i <? c) else Ok tt) = Ok tt).
  { destruct dbg eqn:Hd; [|reflexivity].
    assert (Hsh := limit_dbg_shift ubits dbg bits Hu Hb Hbu _ _ Hd ltac:(rewrite Hd; exact Hlim) Hs).
    rewrite (root_cap_small ubits true bits Hu Hb Hbu v (N.of_nat h)) by assumption. cbn [bind].
    unfold debug_assert. destruct (N.ltb_spec i (dp (N.of_nat h + 1))); [reflexivity|lia]. }
  rewrite Hda. cbn [bind]. rewrite E. cbn [bind]. rewrite to_nat_fuel, Hv.
  assert (Hm : i mod dp (N.of_nat h + 1) = i) by (apply N.mod_small; lia).
  destruct (rep_assoc_set_x ubits dbg bits Hu Hb Hbu h (v_root v) l i x (vdepth (v_root v)) Hrep) as (n' & Ex & Hn').
  - exact (hspec_shift ubits dbg bits Hu Hb Hbu _ _ Hlt Hs).
  - now rewrite Hm.
  - rewrite Ex. cbn [bind]. rewrite Hl. rewrite leb_lt by assumption.
    eexists. split; [reflexivity|]. rewrite Hm in Hn'.
    assert (Hlen : len (map_at (fun _ => x) (N.to_nat i) l) = len l) by (unfold len; now rewrite map_at_length).
    repeat split; cbn; [now rewrite Hlen|]. exists h. rewrite Hlen. auto.
Qed.

Lemma v_set_mut_ok : forall v l i x, v_rep v l -> len l <= limit ->
  exists v', v_set_mut ubits dbg v i x = Ok (v', in_range i l) /\ v_rep v' (map_at_N (fun _ => x) i l).
Proof.
  intros v l i x Hr Hlim. unfold v_set_mut, map_at_N. rewrite in_range_lt.
  pose proof Hr as (Hv & Hl & _). rewrite Hl.
  destruct (N.leb_spec (len l) i) as [H|H].
  - destruct (N.ltb_spec i (len l)); [lia|]. eauto.
  - destruct (N.ltb_spec i (len l)) as [_|]; [|lia].
    destruct (v_assoc_set_ok v l i x Hr Hlim H) as (v' & E & Hr').
    rewrite E. cbn [bind]. eauto.
Qed.

Lemma uadd_small : forall a, a + 1 < 2 ^ ubits -> uadd ubits dbg a 1 = Ok (a + 1).
Proof. intros. unfold uadd. destruct (N.ltb_spec (a + 1) (2 ^ ubits)); [reflexivity|lia]. Qed.

Lemma v_push_ok : forall v l x, v_rep v l -> len l + 1 <= limit ->
  exists v', v_push_back_mut ubits dbg v x = Ok v' /\ v_rep v' (l ++ [x]).
Proof.
  intros v l x Hr Hlim. pose proof (limit_lt ubits dbg bits Hu Hb Hbu) as HL.
  assert (Hlt : len l < 2 ^ ubits) by lia.
  pose proof Hr as (Hv & Hl & _).
  destruct (v_height_rep v l Hr Hlt) as (h & E & Hs & Hrep).
  assert (Hcap := hspec_cap ubits dbg bits Hu Hb Hbu _ _ Hs).
  pose proof (dp_1_ge ubits dbg bits Hu Hb Hbu) as Hd1.
  assert (Hlen' : len (l ++ [x]) = len l + 1) by (rewrite len_app, len_cons, len_nil; lia).
  unfold v_push_back_mut.
  rewrite (is_root_full_ok ubits dbg bits Hu Hb Hbu v (N.of_nat h)); auto; try (rewrite Hl; auto; lia).
  cbn [bind]. rewrite Hl.
  destruct (N.eqb_spec (len l) (dp (N.of_nat h + 1))) as [Hfull|Hnf].
  - (* the root is full: one more level *)
    rewrite uadd_small by lia. cbn [bind]. unfold v_assoc.
    set (v1 := mkV (VBranch [v_root v]) (v_bits v) (len l + 1)).
    assert (Hs1 : hspec (len l + 1) (N.of_nat (S h))).
    { right. pose proof (dp_pos ubits dbg bits Hu Hb Hbu (N.of_nat h + 1)).
      replace (N.of_nat (S h)) with (N.of_nat h + 1) by lia.
      rewrite (dp_S ubits dbg bits Hu Hb Hbu (N.of_nat h + 1)). repeat split; nia. }
    destruct (height_ok ubits dbg bits Hu Hb Hbu v1 Hv) as (h' & E1 & Hs'); [cbn; lia|].
    rewrite (hspec_unique ubits dbg bits Hu Hb Hbu _ _ _ Hs' Hs1) in E1. clear h' Hs'.
    assert (Hda : (if dbg then let! c := v_root_max_capacity ubits dbg v1 in debug_assert dbg (len l <? c) else Ok tt) = Ok tt).
    { destruct dbg eqn:Hd; [|reflexivity].
      assert (Hsh := limit_dbg_shift ubits dbg bits Hu Hb Hbu _ _ Hd ltac:(rewrite Hd; exact Hlim) Hs1).
      rewrite (root_cap_small ubits true bits Hu Hb Hbu v1 (N.of_nat (S h))) by assumption. cbn [bind].
      unfold debug_assert. pose proof (hspec_cap ubits dbg bits Hu Hb Hbu _ _ Hs1).
      destruct (N.ltb_spec (len l) (dp (N.of_nat (S h) + 1))); [reflexivity|lia]. }
    rewrite Hda. cbn [bind]. rewrite E1. cbn [bind]. rewrite to_nat_fuel.
    replace (v_bits v1) with bits by auto.
    destruct (rep_assoc_push_x ubits dbg bits Hu Hb Hbu (S h) (v_root v1) l (len l) x (vdepth (v_root v1))) as (n' & Ex & Hn').
    + left. exists [v_root v]. split; [reflexivity|].
      replace (N.of_nat (S h)) with (N.of_nat h + 1) by lia.
      pose proof (dp_pos ubits dbg bits Hu Hb Hbu (N.of_nat h + 1)). split.
      * apply cr_one; [exact Hrep|lia].
      * rewrite (dp_S ubits dbg bits Hu Hb Hbu (N.of_nat h + 1)). nia.
    + apply (hspec_shift ubits dbg bits Hu Hb Hbu (len l + 1)); [lia|exact Hs1].
    + apply N.mod_small. pose proof (hspec_cap ubits dbg bits Hu Hb Hbu _ _ Hs1). lia.
    + rewrite Ex. cbn [bind]. cbn [v_length v1].
      rewrite leb_lt by lia. eexists. split; [reflexivity|].
      repeat split; cbn [v_bits v_length v_root]; auto.
      exists (S h). rewrite Hlen'. auto.
  - unfold v_assoc.
    assert (Hda : (if dbg then let! c := v_root_max_capacity ubits dbg v in debug_assert dbg (len l <? c) else Ok tt) = Ok tt).
    { destruct dbg eqn:Hd; [|reflexivity].
      assert (Hsh := limit_dbg_shift ubits dbg bits Hu Hb Hbu (len l) _ Hd ltac:(rewrite Hd; apply N.lt_le_incl; lia) Hs).
      rewrite (root_cap_small ubits true bits Hu Hb Hbu v (N.of_nat h)) by assumption. cbn [bind].
      unfold debug_assert. destruct (N.ltb_spec (len l) (dp (N.of_nat h + 1))); [reflexivity|lia]. }
    rewrite Hda. cbn [bind]. rewrite E. cbn [bind]. rewrite to_nat_fuel, Hv.
    destruct (rep_assoc_push_x ubits dbg bits Hu Hb Hbu h (v_root v) l (len l) x (vdepth (v_root v))) as (n' & Ex & Hn').
    + left. exact Hrep.
    + exact (hspec_shift ubits dbg bits Hu Hb Hbu _ _ Hlt Hs).
    + apply N.mod_small. lia.
    + rewrite Ex. cbn [bind]. rewrite Hl, N.leb_refl, uadd_small by lia. cbn [bind].
      eexists. split; [reflexivity|].
      repeat split; cbn [v_bits v_length v_root]; auto.
      exists h. split; [|exact Hn']. rewrite Hlen'.
      destruct Hs as [[H1 Hh]|(H1 & H2 & H3)].
      * rewrite Hh in *. destruct (N.eq_dec (len l) 0) as [E0|].
        -- left. lia.
        -- right. rewrite (dp_0 ubits dbg bits Hu Hb Hbu). change (0 + 1) with 1 in *. lia.
      * right. lia.
Qed.

Lemma v_extend_ok : forall xs v l, v_rep v l -> len l + len xs <= limit ->
  exists v', v_extend ubits dbg v xs = Ok v' /\ v_rep v' (l ++ xs).
Proof.
  induction xs as [|x xs IH]; intros v l Hr Hlim; cbn [v_extend].
  - rewrite app_nil_r. eauto.
  - rewrite len_cons in Hlim.
    destruct (v_push_ok v l x Hr) as (v' & E & Hr'); [lia|]. rewrite E. cbn [bind].
    destruct (IH v' (l ++ [x]) Hr') as (v'' & E' & Hr''); [rewrite len_app, len_cons, len_nil; lia|].
    exists v''. split; [exact E'|]. now rewrite <- app_assoc in Hr''.
Qed.

Lemma v_drop_last_ok : forall v l, v_rep v l ->
  exists v', v_drop_last_mut ubits dbg v = Ok (v', negb (is_nil l)) /\ v_rep v' (removelast l).
Proof.
  intros v l Hr. pose proof Hr as (Hv & Hl & h & Hs & Hrep). unfold v_drop_last_mut. rewrite Hl.
  destruct l as [|x l] using rev_ind.
  { cbn. eauto. }
  clear IHl. rewrite removelast_snoc.
  assert (Hlen : len (l ++ [x]) = len l + 1) by (rewrite len_app, len_cons, len_nil; lia).
  rewrite Hlen in *. destruct (N.ltb_spec 0 (len l + 1)); [|lia].
  replace (is_nil (l ++ [x])) with false by (destruct l; reflexivity).
  destruct (rep_drop_last ubits dbg bits Hu Hb Hbu h _ _ _ Hrep) as (n' & En & Hn').
  rewrite En. cbn [bind].
  assert (Hsub : usub ubits dbg (len l + 1) 1 = Ok (len l)).
  { unfold usub. destruct (N.leb_spec 1 (len l + 1)); [f_equal|]; lia. }
  rewrite Hsub. cbn [bind]. eexists. split; [reflexivity|].
  split; [exact Hv|]. split; [reflexivity|]. cbn [v_root].
  destruct Hn' as [[-> ->]|[Hne Hn']].
  - assert (h = 0%nat) by (destruct Hs as [[_ ?]|(? & _)]; [lia|rewrite len_nil in *; lia]). subst h.
    exists 0%nat. cbn. split; [left; lia|]. split; [reflexivity|]. pose proof (dp_pos ubits dbg bits Hu Hb Hbu 1). lia.
  - assert (Hpos : 0 < len l) by (destruct l; [congruence|rewrite len_cons; lia]).
    assert (Hs' : 1 < len l + 1 /\ dp (N.of_nat h) < len l + 1 /\ len l + 1 <= dp (N.of_nat h + 1)).
    { destruct Hs as [[? ?]|?]; [lia|assumption]. }
    destruct h as [|h].
    + destruct Hn' as [-> Hcap]. cbn [v_compress_root]. exists 0%nat.
      split; [|split; [reflexivity|exact Hcap]].
      change (N.of_nat 0) with 0 in *. rewrite (dp_0 ubits dbg bits Hu Hb Hbu) in *. change (0 + 1) with 1 in *.
      destruct (N.eq_dec (len l) 1); [left; lia|right; rewrite (dp_0 ubits dbg bits Hu Hb Hbu); change (0 + 1) with 1; lia].
    + destruct Hn' as (cs & -> & Hc & Hcap). cbn [v_compress_root]. unfold vn_is_singleton. cbn [used].
      replace (N.of_nat (S h)) with (N.of_nat h + 1) in * by lia.
      pose proof (dp_pos ubits dbg bits Hu Hb Hbu (N.of_nat h)) as Hp. pose proof (dp_1_ge ubits dbg bits Hu Hb Hbu) as Hd1.
      pose proof (dp_S ubits dbg bits Hu Hb Hbu (N.of_nat h)) as HdS.
      destruct (Nat.eqb_spec (length cs) 1) as [Hone|Hmany].
      * destruct cs as [|c [|? ?]]; try discriminate. cbn [rev app hd_error].
        inversion Hc as [? ? Hrc Hlc|? ? ? ? ? ? Hx]; subst; [|inversion Hx].
        exists h. split; [|exact Hrc].
        assert (len l = dp (N.of_nat h + 1)) by lia.
        right. rewrite H0, HdS. nia.
      * pose proof (crep_len_bounds ubits dbg bits Hu Hb Hbu _ _ _ _ (dp_pos ubits dbg bits Hu Hb Hbu _) Hc) as [[B1 B2] B3].
        exists (S h). split.
        2:{ exists cs. replace (N.of_nat (S h)) with (N.of_nat h + 1) by lia. auto. }
        replace (N.of_nat (S h)) with (N.of_nat h + 1) by lia.
        assert (2 <= len cs) by (unfold len in *; lia).
        right. nia.
Qed.

(** *** Capacity is exact in the checked profile: at the limit the next push panics. *)
Lemma v_push_at_limit_panics : forall v l x, dbg = true -> v_rep v l -> len l = limit ->
  v_push_back_mut ubits dbg v x = Panic.
Proof.
  intros v l x Hd Hr Hlim. pose proof (limit_lt ubits dbg bits Hu Hb Hbu) as HL.
  assert (Hlt : len l < 2 ^ ubits) by lia.
  pose proof Hr as (Hv & Hl & _).
  destruct (v_height_rep v l Hr Hlt) as (h & E & Hs & Hrep).
  pose proof (dp_1_ge ubits dbg bits Hu Hb Hbu) as Hd1.
  unfold v_push_back_mut.
  rewrite (is_root_full_ok ubits dbg bits Hu Hb Hbu v (N.of_nat h)); auto; try (rewrite Hl; auto; lia).
  cbn [bind]. rewrite Hl.
  pose proof Hlim as Hlim'. unfold vec_limit in Hlim'. rewrite Hd in Hlim'.
  set (lv := (ubits - 1) / bits) in *. fold (dp lv) in Hlim'.
  assert (HHge : 1 <= lv) by (apply N.div_le_lower_bound; lia).
  assert (Hm : bits * lv <= ubits - 1) by (apply N.mul_div_le; lia).
  assert (HHS : ubits <= bits * (lv + 1)).
  { pose proof (N.mul_succ_div_gt (ubits - 1) bits ltac:(lia)) as X. fold lv in X. lia. }
  clearbody lv.
  assert (Hdp : 1 < dp lv).
  { pose proof (dp_le ubits dbg bits Hu Hb Hbu 1 lv HHge). lia. }
  assert (Hfits : dp lv + 1 < 2 ^ ubits).
  { assert (X1 : 2 ^ 1 <= 2 ^ (ubits - bits * lv)) by (apply pow2_le; lia).
    assert (X2 : 2 ^ ubits = 2 ^ (bits * lv) * 2 ^ (ubits - bits * lv))
      by (rewrite <- N.pow_add_r; f_equal; lia).
    unfold VectorProofs.dp in *. change (2 ^ 1) with 2 in *. nia. }
  assert (Hh : N.of_nat h + 1 = lv).
  { destruct Hs as [[? ?]|(_ & B1 & B2)]; [lia|]. rewrite Hlim' in B1, B2.
    apply (dp_lt_inv ubits dbg bits Hu Hb Hbu) in B1.
    destruct (N.lt_ge_cases lv (N.of_nat h + 1 + 1)) as [|Hc].
    - lia.
    - exfalso. pose proof (dp_le ubits dbg bits Hu Hb Hbu _ _ Hc) as X.
      rewrite (dp_S ubits dbg bits Hu Hb Hbu (N.of_nat h + 1)) in X.
      pose proof (dp_pos ubits dbg bits Hu Hb Hbu (N.of_nat h + 1)). nia. }
  rewrite Hh, Hlim', N.eqb_refl. rewrite uadd_small by lia.
  cbn [bind]. unfold v_assoc. rewrite Hd.
  set (v1 := mkV (VBranch [v_root v]) (v_bits v) (dp lv + 1)).
  assert (Hs1 : hspec (dp lv + 1) lv).
  { right. rewrite (dp_S ubits dbg bits Hu Hb Hbu lv). nia. }
  destruct (height_ok ubits true bits Hu Hb Hbu v1 Hv Hfits) as (h' & E1 & Hs').
  cbn [v_length v1] in Hs'.
  rewrite (hspec_unique ubits dbg bits Hu Hb Hbu _ _ _ Hs' Hs1) in E1. clear h' Hs'.
  unfold v_root_max_capacity. rewrite E1. cbn [bind].
  pose proof (u2 ubits dbg bits Hu Hb Hbu).
  unfold uadd. destruct (N.ltb_spec (lv + 1) (2 ^ ubits)); [|nia]. cbn [bind].
  cbn [v_bits v1]. rewrite Hv. unfold umul.
  destruct (N.ltb_spec (bits * (lv + 1)) (2 ^ ubits)); [|nia]. cbn [bind].
  unfold ushl. destruct (N.ltb_spec (bits * (lv + 1)) ubits); [lia|]. reflexivity.
Qed.
End VO.
