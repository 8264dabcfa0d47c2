(** The bitmap-compressed array is a partial function on indices. *)
From Coq Require Import List NArith Arith Bool Lia Sorted.
From Verif Require Import Base Spec Sim SparseModel VectorProofs.
Import ListNotations.
Local Open Scope N_scope.

Lemma count_ones_double : forall n, count_ones (N.double n) = count_ones n.
Proof. destruct n; reflexivity. Qed.
Lemma count_ones_succ_double : forall n, count_ones (N.succ_double n) = S (count_ones n).
Proof. destruct n; reflexivity. Qed.

Lemma count_ones_step : forall n, count_ones n = ((if N.odd n then 1 else 0) + count_ones (N.div2 n))%nat.
Proof. destruct n as [|[p|p|]]; reflexivity. Qed.

Lemma odd_setbit_S : forall b i, N.odd (N.setbit b (N.succ i)) = N.odd b.
Proof.
  intros. rewrite <- !N.bit0_odd. rewrite N.setbit_neq; [reflexivity|lia].
Qed.

Lemma div2_setbit_S : forall b i, N.div2 (N.setbit b (N.succ i)) = N.setbit (N.div2 b) i.
Proof.
  intros. apply N.bits_inj. intros j. rewrite N.div2_spec, N.shiftr_spec by lia.
  rewrite !N.setbit_eqb. rewrite N.div2_spec, N.shiftr_spec by lia.
  f_equal. destruct (N.eqb_spec (N.succ i) (j + 1)), (N.eqb_spec i j); auto; lia.
Qed.

Lemma count_ones_setbit : forall i b, N.testbit b i = false ->
  count_ones (N.setbit b i) = S (count_ones b).
Proof.
  intros i. induction i as [|i IH] using N.peano_ind; intros b H.
  - rewrite N.bit0_odd in H.
    rewrite (count_ones_step (N.setbit b 0)), (count_ones_step b), H.
    rewrite <- N.bit0_odd, N.setbit_eq.
    replace (N.div2 (N.setbit b 0)) with (N.div2 b); [reflexivity|].
    apply N.bits_inj. intros j. rewrite !N.div2_spec, !N.shiftr_spec by lia.
    rewrite N.setbit_neq; [reflexivity|lia].
  - rewrite (count_ones_step (N.setbit b (N.succ i))), (count_ones_step b).
    rewrite odd_setbit_S, div2_setbit_S, IH; [lia|].
    rewrite N.div2_spec, N.shiftr_spec by lia. rewrite N.add_1_r. exact H.
Qed.

(** The bitmap of a set of indices. *)
Fixpoint bm_of (ks : list N) : N :=
  match ks with [] => 0 | k :: r => N.setbit (bm_of r) k end.

Lemma testbit_bm_of : forall ks i, N.testbit (bm_of ks) i = existsb (N.eqb i) ks.
Proof.
  induction ks as [|k ks IH]; intros i; cbn [bm_of existsb].
  - apply N.bits_0.
  - rewrite N.setbit_eqb, IH, (N.eqb_sym k i). reflexivity.
Qed.

Lemma existsb_eqb_In : forall ks i, existsb (N.eqb i) ks = true <-> In i ks.
Proof.
  intros. rewrite existsb_exists. split.
  - intros (x & H & E). apply N.eqb_eq in E. congruence.
  - intros H. exists i. rewrite N.eqb_refl. auto.
Qed.

Lemma existsb_eqb_not_In : forall ks i, existsb (N.eqb i) ks = false <-> ~ In i ks.
Proof.
  intros. rewrite <- existsb_eqb_In. destruct (existsb (N.eqb i) ks); split; congruence.
Qed.

Lemma count_ones_bm_of : forall ks, NoDup ks -> count_ones (bm_of ks) = length ks.
Proof.
  induction ks as [|k ks IH]; intros H; [reflexivity|]. inversion H; subst. cbn [bm_of length].
  rewrite count_ones_setbit; [now rewrite IH|].
  rewrite testbit_bm_of. now apply existsb_eqb_not_In.
Qed.

Lemma land_ones_bm_of : forall ks i,
  N.land (bm_of ks) (2 ^ i - 1) = bm_of (filter (fun k => k <? i) ks).
Proof.
  intros. rewrite N.sub_1_r, <- N.ones_equiv. apply N.bits_inj. intros j.
  rewrite N.land_spec, !testbit_bm_of.
  destruct (N.ltb_spec j i) as [Hj|Hj].
  - rewrite N.ones_spec_low, andb_true_r by assumption.
    induction ks as [|k ks IH]; [reflexivity|]. cbn [existsb filter].
    destruct (N.ltb_spec k i).
    + cbn [existsb]. now rewrite IH.
    + destruct (N.eqb_spec j k); [lia|]. exact IH.
  - rewrite N.ones_spec_high, andb_false_r by assumption. symmetry.
    apply existsb_eqb_not_In. rewrite filter_In. intros [_ H]. apply N.ltb_lt in H. lia.
Qed.

Lemma land_pow2_bm_of : forall b i, (N.land b (2 ^ i) =? 0) = negb (N.testbit b i).
Proof.
  intros b i. destruct (N.testbit b i) eqn:E; cbn [negb].
  - apply N.eqb_neq. intros H. assert (X : N.testbit (N.land b (2 ^ i)) i = false) by (rewrite H; apply N.bits_0).
    rewrite N.land_spec, E, N.pow2_bits_true in X. discriminate.
  - apply N.eqb_eq. apply N.bits_inj. intros j. rewrite N.land_spec, N.bits_0, N.pow2_bits_eqb.
    destruct (N.eqb_spec i j); [subst; now rewrite E|apply andb_false_r].
Qed.

(** Strictly increasing indices split at [i]. *)
Section Sorted_.
Context {A : Type}.
Notation keys := (map (@fst N A)).

Lemma ss_cons : forall k (l : list N), StronglySorted N.lt (k :: l) <->
  StronglySorted N.lt l /\ (forall x, In x l -> k < x).
Proof.
  intros. split.
  - intros H. inversion H; subst. rewrite Forall_forall in *. auto.
  - intros [H1 H2]. constructor; [assumption|]. now apply Forall_forall.
Qed.

Lemma ss_app : forall (l1 l2 : list N), StronglySorted N.lt (l1 ++ l2) <->
  StronglySorted N.lt l1 /\ StronglySorted N.lt l2 /\ (forall x y, In x l1 -> In y l2 -> x < y).
Proof.
  induction l1 as [|k l1 IH]; intros l2; cbn [app].
  - split; [intros H; repeat split; auto; [constructor|intros x y []]|tauto].
  - rewrite !ss_cons, IH. split.
    + intros [(H1 & H2 & H3) H4]. repeat split; auto.
      * intros x Hx. apply H4, in_app_iff. now left.
      * intros x y [<-|Hx] Hy; [apply H4, in_app_iff; now right|auto].
    + intros ((H1 & H2) & H3 & H4). repeat split; auto.
      * intros x y Hx Hy. apply H4; [now right|assumption].
      * intros x Hx. apply in_app_iff in Hx as [Hx|Hx]; [auto|]. apply H4; [now left|assumption].
Qed.

Lemma ss_nodup : forall l : list N, StronglySorted N.lt l -> NoDup l.
Proof.
  induction l as [|k l IH]; intros H; constructor; apply ss_cons in H as [H1 H2].
  - intros Hin. specialize (H2 _ Hin). lia.
  - auto.
Qed.

Definition below (i : N) (al : list (N * A)) : Prop := forall p, In p al -> fst p < i.
Definition above (i : N) (al : list (N * A)) : Prop := forall p, In p al -> i < fst p.

Lemma split_at_index : forall i (al : list (N * A)), StronglySorted N.lt (keys al) ->
  exists l1 l2, below i l1 /\ above i l2 /\
    length l1 = length (filter (fun k => k <? i) (keys al)) /\
    ((al = l1 ++ l2 /\ existsb (N.eqb i) (keys al) = false) \/
     (exists c, al = l1 ++ (i, c) :: l2 /\ existsb (N.eqb i) (keys al) = true)).
Proof.
  intros i al. induction al as [|[k a] al IH]; intros H.
  - exists [], []. repeat split; try (intros ? []). left. auto.
  - cbn [map fst] in H. apply ss_cons in H as [H1 H2]. cbn [map fst filter existsb].
    destruct (N.lt_trichotomy k i) as [Hk|[Hk|Hk]].
    + destruct (IH H1) as (l1 & l2 & B1 & B2 & E & Hc). exists ((k, a) :: l1), l2.
      split; [intros p [<-|Hp]; [exact Hk|auto]|]. split; [assumption|].
      destruct (N.ltb_spec k i); [|lia]. split; [cbn [length]; now rewrite E|].
      destruct (N.eqb_spec i k); [lia|]. cbn [orb].
      destruct Hc as [[-> Hc]|(c & -> & Hc)]; [left|right; exists c]; auto.
    + subst k. exists [], al. split; [intros ? []|]. split.
      { intros p Hp. apply H2. now apply in_map. }
      destruct (N.ltb_spec i i); [lia|]. rewrite N.eqb_refl. split.
      * cbn [length]. symmetry. rewrite length_zero_iff_nil.
        apply (proj2 (Forall_forall _ _)) in H2 as H3. clear -H3.
        induction H3 as [|x l Hx _ IHl]; [reflexivity|]. cbn. destruct (N.ltb_spec x i); [lia|exact IHl].
      * right. exists a. auto.
    + exists [], ((k, a) :: al). split; [intros ? []|]. split.
      { intros p [<-|Hp]; [exact Hk|]. apply (in_map fst) in Hp. specialize (H2 _ Hp). lia. }
      assert (Ht : forall x, In x (keys al) -> i < x) by (intros x Hx; specialize (H2 _ Hx); lia).
      assert (Hf : filter (fun k0 => k0 <? i) (keys al) = []).
      { clear -Ht. induction (keys al) as [|x l IHl]; [reflexivity|]. cbn.
        destruct (N.ltb_spec x i) as [Hx|Hx]; [specialize (Ht x (or_introl eq_refl)); lia|].
        apply IHl. intros y Hy. apply Ht. now right. }
      destruct (N.ltb_spec k i); [lia|]. rewrite Hf. split; [reflexivity|].
      left. split; [reflexivity|]. destruct (N.eqb_spec i k); [lia|]. cbn [orb].
      apply existsb_eqb_not_In. intros Hin. specialize (Ht _ Hin). lia.
Qed.
End Sorted_.

Section SP.
Variable ubits : N.
Variable dbg : bool.
Hypothesis Hu : 0 < ubits.
Set Default Proof Using "ubits dbg Hu".
Context {A : Type}.

(** The array holds the association list [al]: indices increasing and below the width. *)
Definition sa_wf (s : sarr A) (al : list (N * A)) : Prop :=
  sa_bitmap s = bm_of (map fst al) /\ sa_array s = map snd al /\
  StronglySorted N.lt (map fst al) /\ (forall p, In p al -> fst p < ubits).

Lemma sa_wf_new : sa_wf sa_new [].
Proof. repeat split; try constructor. intros ? []. Qed.

Lemma ushl_one : forall i, i < ubits -> ushl ubits dbg 1 i = Ok (2 ^ i).
Proof.
  intros i H. unfold ushl. destruct (N.ltb_spec i ubits); [|lia]. f_equal.
  rewrite N.shiftl_1_l. unfold wrap. apply N.mod_small. apply N.pow_lt_mono_r; lia.
Qed.

Lemma rank_ok : forall (al : list (N * A)) i, i < ubits -> StronglySorted N.lt (map fst al) ->
  rank ubits dbg (bm_of (map fst al)) i = Ok (length (filter (fun k => k <? i) (map fst al))).
Proof.
  intros al i H Hs. unfold rank. rewrite ushl_one by assumption. cbn [bind]. unfold usub.
  pose proof (pow2_pos i). destruct (N.leb_spec 1 (2 ^ i)); [|lia]. cbn [bind].
  rewrite land_ones_bm_of, count_ones_bm_of; [reflexivity|].
  apply NoDup_filter. now apply ss_nodup.
Qed.

Lemma map_index_ok : forall (al : list (N * A)) i, i < ubits -> StronglySorted N.lt (map fst al) ->
  map_index ubits dbg (bm_of (map fst al)) i =
  Ok (if existsb (N.eqb i) (map fst al)
      then Some (length (filter (fun k => k <? i) (map fst al))) else None).
Proof.
  intros al i H Hs. unfold map_index. rewrite ushl_one by assumption. cbn [bind].
  rewrite land_pow2_bm_of, testbit_bm_of.
  destruct (existsb (N.eqb i) (map fst al)); cbn [negb]; [|reflexivity].
  now rewrite rank_ok.
Qed.

(** The position of index [i]: either a hole or an entry. *)
Inductive focus (i : N) (al : list (N * A)) : Prop :=
| f_hole : forall l1 l2, al = l1 ++ l2 -> below i l1 -> above i l2 -> focus i al
| f_entry : forall l1 c l2, al = l1 ++ (i, c) :: l2 -> below i l1 -> above i l2 -> focus i al.

Lemma dassert_idx : forall i, i < ubits -> debug_assert dbg (i <? ubits) = Ok tt.
Proof. intros i H. unfold debug_assert. destruct (N.ltb_spec i ubits); [now rewrite andb_false_r|lia]. Qed.

Lemma vec_insert_ok : forall B (l1 l2 : list B) x, vec_insert (length l1) x (l1 ++ l2) = Ok (l1 ++ x :: l2).
Proof. induction l1 as [|y l1 IH]; intros l2 x; cbn; [destruct l2; reflexivity|]. now rewrite IH. Qed.
Lemma vec_remove_ok : forall B (l1 l2 : list B) x, vec_remove (length l1) (l1 ++ x :: l2) = Ok (l1 ++ l2).
Proof. induction l1 as [|y l1 IH]; intros l2 x; cbn; [reflexivity|]. now rewrite IH. Qed.
Lemma vec_store_ok : forall B (l1 l2 : list B) y x, vec_store (length l1) x (l1 ++ y :: l2) = Ok (l1 ++ x :: l2).
Proof. induction l1 as [|z l1 IH]; intros l2 y x; cbn; [reflexivity|]. now rewrite IH. Qed.

Lemma bm_of_snoc_mid : forall k ks1 ks2, bm_of (ks1 ++ k :: ks2) = N.setbit (bm_of (ks1 ++ ks2)) k.
Proof.
  intros. apply N.bits_inj. intros j. rewrite N.setbit_eqb, !testbit_bm_of, !existsb_app.
  cbn [existsb]. rewrite (N.eqb_sym k j). destruct (existsb (N.eqb j) ks1), (j =? k); reflexivity.
Qed.

Lemma sa_wf_update : forall s l1 i c c' l2, sa_wf s (l1 ++ (i, c) :: l2) ->
  sa_wf (mkSA (sa_bitmap s) (map_at (fun _ => c') (length l1) (sa_array s))) (l1 ++ (i, c') :: l2).
Proof.
  intros s l1 i c c' l2 (Eb & Ea & Hs & Hi). unfold sa_wf. cbn [sa_bitmap sa_array].
  rewrite !map_app in *. cbn [map fst snd] in *. repeat split; auto.
  - rewrite Ea. rewrite <- (map_length snd l1). apply map_at_app1.
  - intros p Hp. apply in_app_iff in Hp as [Hp|[<-|Hp]].
    + apply Hi. apply in_app_iff. now left.
    + exact (Hi (i, c) (in_elt _ _ _)).
    + apply Hi. apply in_app_iff. right. now right.
Qed.

(** One lemma for all accesses at an index. *)
Lemma sa_access : forall s al i, sa_wf s al -> i < ubits ->
  (exists l1 l2, al = l1 ++ l2 /\ below i l1 /\ above i l2 /\
     sa_get ubits dbg s i = Ok None /\ sa_get_mut ubits dbg s i = Ok None /\
     sa_remove ubits dbg s i = Ok s /\
     forall c, exists s', sa_set ubits dbg s i c = Ok s' /\ sa_wf s' (l1 ++ (i, c) :: l2)) \/
  (exists l1 c l2, al = l1 ++ (i, c) :: l2 /\ below i l1 /\ above i l2 /\
     sa_get ubits dbg s i = Ok (Some c) /\
     (exists w, sa_get_mut ubits dbg s i = Ok (Some (c, w)) /\
                forall c', sa_wf (w c') (l1 ++ (i, c') :: l2)) /\
     (exists s', sa_remove ubits dbg s i = Ok s' /\ sa_wf s' (l1 ++ l2)) /\
     forall c', exists s', sa_set ubits dbg s i c' = Ok s' /\ sa_wf s' (l1 ++ (i, c') :: l2)).
Proof.
  intros s al i Hw Hi. pose proof Hw as (Eb & Ea & Hs & Hlt).
  destruct (split_at_index i al Hs) as (l1 & l2 & B1 & B2 & E & Hc).
  pose proof (map_index_ok al i Hi Hs) as Hm. rewrite <- Eb, <- E in Hm.
  pose proof (rank_ok al i Hi Hs) as Hrk. rewrite <- Eb, <- E in Hrk.
  unfold sa_get, sa_get_mut, sa_set, sa_remove. rewrite dassert_idx by assumption.
  rewrite Hm, Hrk, ushl_one by assumption. cbn [bind].
  destruct Hc as [[Hal Hx]|(c & Hal & Hx)]; rewrite Hx; [left|right].
  - exists l1, l2. repeat split; auto. intros c. rewrite Ea, Hal.
    rewrite map_app, <- (map_length snd l1), vec_insert_ok. cbn [bind].
    eexists. split; [reflexivity|]. unfold sa_wf. cbn [sa_bitmap sa_array].
    rewrite !map_app. cbn [map fst snd]. split; [|split; [reflexivity|split]].
    + rewrite Eb, Hal, map_app, bm_of_snoc_mid. unfold N.setbit. now rewrite N.shiftl_1_l.
    + rewrite Hal, map_app in Hs. apply ss_app in Hs as (S1 & S2 & S3). apply ss_app.
      split; [assumption|]. split.
      * apply ss_cons. split; [assumption|]. intros x Hx'. apply in_map_iff in Hx' as (p & <- & Hp). auto.
      * intros x y Hx' [<-|Hy]; [|auto]. apply in_map_iff in Hx' as (p & <- & Hp). auto.
    + intros p Hp. apply in_app_iff in Hp as [Hp|[<-|Hp]].
      * apply Hlt. rewrite Hal. apply in_app_iff. now left.
      * exact Hi.
      * apply Hlt. rewrite Hal. apply in_app_iff. now right.
  - assert (En : nth_error (sa_array s) (length l1) = Some c).
    { rewrite Ea, Hal, map_app. rewrite <- (map_length snd l1). apply nth_error_focus. }
    rewrite En. cbn [unwrap bind]. exists l1, c, l2.
    split; [assumption|]. split; [assumption|]. split; [assumption|]. split; [reflexivity|].
    split; [|split].
    + eexists. split; [reflexivity|]. intros c'. cbv beta. rewrite Hal in Hw. exact (sa_wf_update _ _ _ _ _ _ Hw).
    + rewrite Ea, Hal. rewrite map_app. cbn [map fst snd].
      rewrite <- (map_length snd l1), vec_remove_ok. cbn [bind].
      eexists. split; [reflexivity|]. unfold sa_wf. cbn [sa_bitmap sa_array]. rewrite !map_app.
      split; [|split; [reflexivity|split]].
      * rewrite Eb, Hal, map_app. cbn [map fst]. rewrite bm_of_snoc_mid.
        assert (Hno : existsb (N.eqb i) (map fst l1 ++ map fst l2) = false).
        { apply existsb_eqb_not_In. intros Hin. apply in_app_iff in Hin as [Hin|Hin];
            apply in_map_iff in Hin as (p & Ep & Hp); [specialize (B1 _ Hp)|specialize (B2 _ Hp)]; lia. }
        apply N.bits_inj. intros j. rewrite N.lxor_spec, N.setbit_eqb, N.pow2_bits_eqb, !testbit_bm_of.
        destruct (N.eqb_spec i j) as [<-|]; [rewrite Hno; reflexivity|]. cbn [orb]. apply xorb_false_r.
      * rewrite Hal, map_app in Hs. cbn [map fst] in Hs.
        apply ss_app in Hs as (S1 & S2 & S3). apply ss_cons in S2 as [S2 _]. apply ss_app.
        split; [assumption|]. split; [assumption|]. intros x y Hx' Hy. apply S3; [assumption|now right].
      * intros p Hp. apply Hlt. rewrite Hal. apply in_app_iff in Hp as [Hp|Hp]; apply in_app_iff;
          [now left|right; now right].
    + intros c'. rewrite Ea, Hal. rewrite map_app. cbn [map fst snd].
      rewrite <- (map_length snd l1), vec_store_ok. cbn [bind]. eexists. split; [reflexivity|].
      pose proof (sa_wf_update s l1 i c c' l2) as X. rewrite <- Hal in X. specialize (X Hw).
      rewrite Ea, Hal, map_app in X. cbn [map fst snd] in X.
      rewrite <- (map_length snd l1) in X. rewrite map_at_app1 in X. exact X.
Qed.

Lemma sa_size_ok : forall s al, sa_wf s al -> sa_size s = length al.
Proof.
  intros s al (Eb & _ & Hs & _). unfold sa_size. rewrite Eb, count_ones_bm_of by now apply ss_nodup.
  apply map_length.
Qed.

(** *** Histories *)
Fixpoint assoc (al : list (N * A)) (i : N) : option A :=
  match al with
  | [] => None
  | (k, a) :: r => if i =? k then Some a else assoc r i
  end.

Lemma assoc_app : forall l1 l2 i, assoc (l1 ++ l2) i = match assoc l1 i with Some a => Some a | None => assoc l2 i end.
Proof. induction l1 as [|[k a] l1 IH]; intros l2 i; cbn; [reflexivity|]. destruct (i =? k); auto. Qed.

Lemma assoc_below : forall i al, below i al -> assoc al i = None.
Proof.
  induction al as [|[k a] al IH]; intros H; cbn; [reflexivity|].
  destruct (N.eqb_spec i k) as [->|]; [specialize (H _ (or_introl eq_refl)); cbn in H; lia|].
  apply IH. intros p Hp. apply H. now right.
Qed.
Lemma assoc_above : forall i al, above i al -> assoc al i = None.
Proof.
  induction al as [|[k a] al IH]; intros H; cbn; [reflexivity|].
  destruct (N.eqb_spec i k) as [->|]; [specialize (H _ (or_introl eq_refl)); cbn in H; lia|].
  apply IH. intros p Hp. apply H. now right.
Qed.

Definition sa_rep (s : sarr A) (f : N -> option A) : Prop :=
  exists al, sa_wf s al /\ forall i, f i = assoc al i.

Lemma in_order_ext : forall (f g : N -> option A) n from, (forall i, f i = g i) ->
  in_order f from n = in_order g from n.
Proof. intros f g n. induction n as [|n IH]; intros from H; cbn; [reflexivity|]. now rewrite H, IH. Qed.

Lemma assoc_gt : forall al from, (forall p, In p al -> from < fst p) -> assoc al from = None.
Proof. intros al from H. apply assoc_above. exact H. Qed.

Lemma in_order_assoc : forall n al from, StronglySorted N.lt (map fst al) ->
  (forall p, In p al -> from <= fst p < from + N.of_nat n) ->
  in_order (assoc al) from n = map snd al.
Proof.
  induction n as [|n IH]; intros al from Hs Hb.
  - destruct al as [|p al]; [reflexivity|]. specialize (Hb p (or_introl eq_refl)). lia.
  - cbn [in_order]. destruct al as [|[k a] al]; [change (in_order (assoc []) (from + 1) n = map snd (@nil (N * A))); apply IH; [constructor|intros ? []]|].
    cbn [map fst] in Hs. apply ss_cons in Hs as [S1 S2].
    assert (Ht : forall p, In p al -> k < fst p) by (intros p Hp; apply S2; now apply in_map).
    pose proof (Hb _ (or_introl eq_refl)) as Hk. cbn [fst] in Hk.
    destruct (N.eq_dec from k) as [->|Hne].
    + cbn [assoc]. rewrite N.eqb_refl. cbn [app map snd]. f_equal.
      rewrite <- (IH al (k + 1)); [|assumption|].
      * clear -S1. assert (X : forall m from, k < from ->
          in_order (fun i => if i =? k then Some a else assoc al i) from m = in_order (assoc al) from m).
        { induction m as [|m IHm]; intros from Hf; cbn [in_order]; [reflexivity|].
          destruct (N.eqb_spec from k); [lia|]. rewrite IHm; [reflexivity|lia]. }
        apply X. lia.
      * intros p Hp. specialize (Ht p Hp). specialize (Hb p (or_intror Hp)). lia.
    + assert (Ex : assoc ((k, a) :: al) from = None).
      { cbn [assoc]. destruct (N.eqb_spec from k); [lia|].
        apply assoc_gt. intros p Hp; specialize (Ht p Hp); lia. }
      rewrite Ex. cbn [app].
      rewrite IH; [reflexivity| |].
      * cbn [map fst]. apply ss_cons. auto.
      * intros p Hp. specialize (Hb p Hp). destruct Hp as [<-|Hp]; cbn [fst] in *; [lia|].
        specialize (Ht p Hp). lia.
Qed.

Lemma sa_rep_all : forall s f, sa_rep s f -> in_order f 0 (N.to_nat ubits) = sa_array s.
Proof.
  intros s f (al & (Eb & Ea & Hs & Hb) & Hf). rewrite (in_order_ext _ _ _ _ Hf), Ea.
  apply in_order_assoc; [assumption|]. intros p Hp. specialize (Hb p Hp). lia.
Qed.

Lemma assoc_mid : forall l1 i c l2 j, below i l1 -> above i l2 ->
  assoc (l1 ++ (i, c) :: l2) j = if j =? i then Some c else assoc (l1 ++ l2) j.
Proof.
  intros l1 i c l2 j B1 B2. rewrite !assoc_app. cbn [assoc].
  destruct (N.eqb_spec j i) as [->|].
  - now rewrite (assoc_below i l1).
  - reflexivity.
Qed.

Lemma assoc_hole : forall l1 i l2, below i l1 -> above i l2 -> assoc (l1 ++ l2) i = None.
Proof. intros. rewrite assoc_app, assoc_below, assoc_above; auto. Qed.

Lemma sa_step_ok : forall (o : sparse_op A) s f, sa_rep s f -> sparse_index o < ubits ->
  exists s', sa_step ubits dbg o s = Ok (s', snd (sparse_spec ubits o f)) /\
             sa_rep s' (fst (sparse_spec ubits o f)).
Proof.
  intros o s f Hr Hi. pose proof (sa_rep_all _ _ Hr) as Hall. destruct Hr as (al & Hw & Hf).
  destruct o as [i x|i|i g|i| | | |]; cbn [sa_step sparse_spec fst snd sparse_index] in *;
    try (destruct (sa_access s al i Hw Hi) as
      [(l1 & l2 & -> & B1 & B2 & Eg & Em & Er & Hset)|(l1 & c & l2 & -> & B1 & B2 & Eg & (w & Em & Hm) & (sr & Er & Hr) & Hset)];
      (assert (Hfi := Hf i))).
  - destruct (Hset x) as (s' & E & Hw'). rewrite E. cbn [bind]. eexists. split; [reflexivity|].
    eexists. split; [exact Hw'|]. intros j. rewrite assoc_mid by assumption. unfold upd.
    now rewrite Hf.
  - destruct (Hset x) as (s' & E & Hw'). rewrite E. cbn [bind]. eexists. split; [reflexivity|].
    eexists. split; [exact Hw'|]. intros j. rewrite assoc_mid by assumption. unfold upd.
    rewrite Hf, assoc_mid by assumption. now destruct (j =? i).
  - rewrite Er. cbn [bind]. eexists. split; [reflexivity|]. eexists. split; [exact Hw|].
    intros j. unfold upd. rewrite Hf. destruct (N.eqb_spec j i) as [->|]; [|reflexivity].
    now rewrite assoc_hole.
  - rewrite Er. cbn [bind]. eexists. split; [reflexivity|]. eexists. split; [exact Hr|].
    intros j. unfold upd. rewrite Hf, assoc_mid by assumption.
    destruct (N.eqb_spec j i) as [->|]; [|reflexivity]. now rewrite assoc_hole.
  - rewrite Em. cbn [bind]. rewrite assoc_hole in Hfi by assumption. rewrite Hfi. cbn [option_map].
    eexists. split; [reflexivity|]. eexists. split; [exact Hw|].
    intros j. unfold upd. destruct (N.eqb_spec j i) as [->|]; [|apply Hf]. now rewrite assoc_hole.
  - rewrite Em. cbn [bind]. rewrite assoc_mid, N.eqb_refl in Hfi by assumption. rewrite Hfi. cbn [option_map].
    eexists. split; [reflexivity|]. eexists. split; [apply Hm|].
    intros j. unfold upd. rewrite Hf, !assoc_mid by assumption. now destruct (j =? i).
  - rewrite Eg. cbn [bind]. rewrite assoc_hole in Hfi by assumption. rewrite Hfi.
    eexists. split; [reflexivity|]. eexists. eauto.
  - rewrite Eg. cbn [bind]. rewrite assoc_mid, N.eqb_refl in Hfi by assumption. rewrite Hfi.
    eexists. split; [reflexivity|]. eexists. eauto.
  - exists s. unfold sa_first. rewrite Hall. split; [reflexivity|]. exists al. auto.
  - exists s. rewrite (sa_size_ok _ _ Hw), Hall. destruct Hw as (? & Ea & ?). rewrite Ea, map_length.
    split; [reflexivity|]. exists al. unfold sa_wf. auto.
  - exists s. unfold sa_iter. rewrite Hall. split; [reflexivity|]. exists al. auto.
  - exists s. destruct s as [b a]. split; [reflexivity|]. exists al. auto.
Qed.

Lemma sparse_history : forall (ops : list (sparse_op A)),
  (forall o, In o ops -> sparse_index o < ubits) ->
  exists s, exec_m (sa_step ubits dbg) ops sa_new = Ok (s, snd (exec_s (sparse_spec ubits) ops (fun _ => None))).
Proof.
  intros ops Hops.
  assert (X : forall ops s f, sa_rep s f -> (forall o, In o ops -> sparse_index o < ubits) ->
    exists s', exec_m (sa_step ubits dbg) ops s = Ok (s', snd (exec_s (sparse_spec ubits) ops f))).
  { clear ops Hops. induction ops as [|o ops IH]; intros s f Hr Hops; [cbn; eauto|].
    destruct (sa_step_ok o s f Hr (Hops o (or_introl eq_refl))) as (s' & E & Hr').
    destruct (IH s' _ Hr' (fun o' H => Hops o' (or_intror H))) as (s'' & E').
    cbn [exec_m exec_s]. rewrite E. cbn [bind].
    destruct (sparse_spec ubits o f) as [f' x] eqn:Es. cbn [fst snd] in *. rewrite E'. cbn [bind].
    destruct (exec_s (sparse_spec ubits) ops f') as [f'' xs]. cbn [snd]. eauto. }
  apply X; [|assumption]. exists []. split; [apply sa_wf_new|reflexivity].
Qed.
End SP.
