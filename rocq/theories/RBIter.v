(** RedBlackTreeMap: iterators, ranges and height. *)
From Coq Require Import List NArith Arith Bool Lia Permutation Sorted.
From Verif Require Import Base Spec SpecMap SpecOrd Sim HashProofs HashHist RBModel RBProofs RBHist.
Import ListNotations.

Lemma SS_rev : forall A (R : A -> A -> Prop) l, StronglySorted R l -> StronglySorted (fun a b => R b a) (rev l).
Proof.
  intros A R. induction l as [|a l IH]; intros H; cbn [rev]; [constructor|]. inversion H as [|? ? H1 H2]; subst.
  apply SS_app. split; [auto|]. split; [repeat constructor|]. rewrite Forall_forall in H2.
  intros x y Hx [<-|[]]. apply H2. now apply in_rev.
Qed.

Lemma filter_filter : forall A (p q : A -> bool) l, filter p (filter q l) = filter (fun x => q x && p x) l.
Proof.
  intros A p q. induction l as [|a l IH]; [reflexivity|]. cbn [filter]. destruct (q a); cbn [filter andb]; [|exact IH].
  destruct (p a); now rewrite IH.
Qed.
Lemma filter_ext_all : forall A (p q : A -> bool) l, (forall a, p a = q a) -> filter p l = filter q l.
Proof. intros A p q l H. now apply filter_ext. Qed.
Lemma rev_filter : forall A (p : A -> bool) l, filter p (rev l) = rev (filter p l).
Proof.
  intros A p. induction l as [|a l IH]; [reflexivity|]. cbn [rev filter]. rewrite filter_app, IH. cbn [filter].
  destruct (p a); cbn [rev]; [reflexivity|now rewrite app_nil_r].
Qed.
Lemma rev_removelast : forall A (l : list A), rev (tl l) = removelast (rev l).
Proof. intros A [|a l]; [reflexivity|]. cbn [tl rev]. now rewrite removelast_snoc. Qed.

(** Longest path from the root, in nodes. *)
Fixpoint hgt {K V} (t : tree K V) : nat :=
  match t with Leaf => 0 | Tree _ _ l r => S (Nat.max (hgt l) (hgt r)) end.

Section Stack.
Context {K V Q : Type}.
Variable kcmp : K -> K -> comparison.
Variable borrow : K -> Q.
Variable qcmp : Q -> Q -> comparison.
Hypothesis OL : ord_laws qcmp.
Hypothesis KB : forall a b, kcmp a b = qcmp (borrow a) (borrow b).
Variable sb eb : bound Q.
Notation entry := (prod K V).
Notation tree := (tree K V).
Set Default Proof Using "OL KB".

Lemma above_mono : forall a b, qcmp a b = Lt -> above qcmp sb a = true -> above qcmp sb b = true.
Proof.
  intros a b H. unfold above, q_le, q_lt. destruct sb as [v|v|]; auto; intros E.
  - destruct (qcmp v a) eqn:F; [rewrite (ol_eq _ OL _ _ _ F), H; reflexivity|now rewrite (ol_trans _ OL _ _ _ F H)|discriminate].
  - destruct (qcmp v a) eqn:F; try discriminate. now rewrite (ol_trans _ OL _ _ _ F H).
Qed.
Lemma below_mono : forall a b, qcmp a b = Lt -> below qcmp eb b = true -> below qcmp eb a = true.
Proof.
  intros a b H. unfold below, q_le, q_lt. destruct eb as [v|v|]; auto; intros E.
  - destruct (qcmp b v) eqn:F; [rewrite <- (cmp_eq_r _ OL _ _ a F), H; reflexivity|now rewrite (ol_trans _ OL _ _ _ H F)|discriminate].
  - destruct (qcmp b v) eqn:F; try discriminate. now rewrite (ol_trans _ OL _ _ _ H F).
Qed.

Definition inr (x : entry) : bool := above qcmp sb (borrow (fst x)) && below qcmp eb (borrow (fst x)).

Section Dir.
Variable bw : bool.
Definition pre (x : entry) : bool := if bw then below qcmp eb (borrow (fst x)) else above qcmp sb (borrow (fst x)).
Definition post (x : entry) : bool := if bw then above qcmp sb (borrow (fst x)) else below qcmp eb (borrow (fst x)).
Definition dlt (x y : entry) : Prop := if bw then kcmp (fst y) (fst x) = Lt else kcmp (fst x) (fst y) = Lt.
Definition ord (l : list entry) : list entry := if bw then rev l else l.
Definition seq (t : tree) : list entry := ord (elems t).
Definition rest (t : tree) : list entry :=
  match t with Leaf => [] | Tree e _ l r => e :: seq (if bw then l else r) end.
Definition raw (st : list tree) : list entry := flat_map rest st.

Lemma pre_mono : forall x y, dlt x y -> pre x = true -> pre y = true.
Proof. intros x y. unfold dlt, pre. destruct bw; rewrite KB; intros H; [eapply below_mono|eapply above_mono]; exact H. Qed.
Lemma post_mono : forall x y, dlt x y -> post y = true -> post x = true.
Proof. intros x y. unfold dlt, post. destruct bw; rewrite KB; intros H; [eapply above_mono|eapply below_mono]; exact H. Qed.

Lemma seq_node : forall e c l r, seq (Tree e c l r) = seq (if bw then r else l) ++ e :: seq (if bw then l else r).
Proof using.
  intros e c l r. unfold seq, ord. cbn [elems]. destruct bw; [|reflexivity]. rewrite rev_app_distr. cbn [rev].
  now rewrite <- app_assoc.
Qed.
Lemma ord_sorted : forall l, sorted kcmp l -> StronglySorted dlt (ord l).
Proof using.
  intros l H. unfold dlt, ord. destruct bw; [|exact H]. now apply (SS_rev _ (fun a b : entry => kcmp (fst a) (fst b) = Lt)).
Qed.

Lemma dig_raw : forall t st, raw (s_dig bw t st) = seq t ++ raw st.
Proof using.
  intros t. induction t as [|e c l IHl r IHr]; intros st.
  - cbn. unfold seq, ord. now destruct bw.
  - rewrite seq_node, <- app_assoc. cbn [s_dig]. destruct bw eqn:B; [rewrite IHr|rewrite IHl]; cbn [raw flat_map rest]; rewrite B; reflexivity.
Qed.

Lemma dig_towards_raw : forall t st, StronglySorted dlt (seq t) ->
  raw (s_dig_towards borrow qcmp bw sb eb t st) = filter pre (seq t) ++ raw st.
Proof.
  induction t as [|e c l IHl r IHr]; intros st H.
  - cbn. unfold seq, ord. now destruct bw.
  - rewrite seq_node in *. apply SS_app in H as (H1 & H2 & H3). inversion H2 as [|? ? H4 H5]; subst.
    rewrite Forall_forall in H5. rewrite filter_app. cbn [filter s_dig_towards].
    change (if bw then below qcmp eb (borrow (fst e)) else above qcmp sb (borrow (fst e))) with (pre e).
    destruct (pre e) eqn:Ep.
    + rewrite (filter_all _ pre (seq (if bw then l else r))) by (intros x Hx; eapply pre_mono; [apply H5; exact Hx|exact Ep]).
      rewrite <- app_assoc. cbn [app].
      destruct bw eqn:B; [rewrite IHr by assumption|rewrite IHl by assumption]; cbn [raw flat_map rest]; rewrite B; reflexivity.
    + rewrite (filter_none _ pre (seq (if bw then r else l))).
      2:{ intros x Hx. destruct (pre x) eqn:E; [|reflexivity]. rewrite <- Ep. symmetry. eapply pre_mono; [|exact E].
          apply H3; [exact Hx|now left]. }
      destruct bw eqn:B; [rewrite IHl by assumption|rewrite IHr by assumption]; reflexivity.
Qed.

(** Nodes on the stack are one below the other on a path. *)
Fixpoint chain (H lo : nat) (st : list tree) : Prop :=
  match st with [] => lo <= H | t :: st' => lo < hgt t /\ chain H (hgt t) st' end.
Lemma chain_weak : forall H st lo lo', lo' <= lo -> chain H lo st -> chain H lo' st.
Proof using. intros H [|t st] lo lo' L; cbn [chain]; [lia|]. intros [? ?]; split; [lia|assumption]. Qed.
Lemma chain_length : forall H st lo, chain H lo st -> length st + lo <= H.
Proof using. intros H. induction st as [|t st IH]; intros lo; cbn [chain length]; [lia|]. intros [H1 H2]. apply IH in H2. lia. Qed.
Lemma chain_dig : forall H t st, chain H (hgt t) st -> chain H 0 (s_dig bw t st).
Proof using.
  intros H. induction t as [|e c l IHl r IHr]; intros st Hc; cbn [s_dig]; [exact Hc|].
  destruct bw; [apply IHr|apply IHl]; cbn [chain]; (split; [cbn [hgt]; lia|exact Hc]).
Qed.
Lemma chain_dig_towards : forall H t st, chain H (hgt t) st -> chain H 0 (s_dig_towards borrow qcmp bw sb eb t st).
Proof using.
  intros H. induction t as [|e c l IHl r IHr]; intros st Hc; cbn [s_dig_towards]; [exact Hc|].
  destruct bw, (below qcmp eb (borrow (fst e))), (above qcmp sb (borrow (fst e)));
    (apply IHl || apply IHr); cbn [chain]; try (split; [cbn [hgt]; lia|exact Hc]);
    (eapply chain_weak; [|exact Hc]; cbn [hgt]; lia).
Qed.

(** [L] are the entries left for the stack [s]. *)
Definition stk_ok (H : nat) (s : istk K V) (L : list entry) : Prop :=
  s_backwards s = bw /\ filter post (raw (s_stack s)) = L /\ StronglySorted dlt (raw (s_stack s)) /\
  chain H 0 (s_stack s) /\ s_current s = hd_error L /\ (L = [] -> s_stack s = []).

Lemma clear_ok : forall H st, StronglySorted dlt (raw st) -> chain H 0 st ->
  stk_ok H (s_clear_if_finished borrow qcmp sb eb (mkStk st bw)) (filter post (raw st)).
Proof.
  intros H [|[|e c l r] st] Hs Hc.
  - repeat split; auto; constructor.
  - cbn in Hc. lia.
  - unfold s_clear_if_finished. cbn [s_current s_stack s_backwards].
    change (if bw then above qcmp sb (borrow (fst e)) else below qcmp eb (borrow (fst e))) with (post e).
    cbn [raw flat_map rest app] in Hs |- *.
    destruct (post e) eqn:Ep.
    + unfold stk_ok. cbn [s_stack s_backwards s_current raw flat_map rest app]. split; [reflexivity|]. split; [reflexivity|].
      split; [exact Hs|]. split; [exact Hc|]. cbn [filter]. rewrite Ep. split; [reflexivity|discriminate].
    + cbn [filter]. rewrite Ep. inversion Hs as [|? ? H1 H2]; subst. rewrite Forall_forall in H2.
      rewrite filter_none.
      * unfold stk_ok. cbn. repeat split; auto; try constructor; apply Nat.le_0_l.
      * intros x Hx. destruct (post x) eqn:E; [|reflexivity]. rewrite <- Ep. symmetry. eapply post_mono; [|exact E]. auto.
Qed.

Lemma s_new_ok : forall m, sorted kcmp (elems (rb_root m)) ->
  stk_ok (hgt (rb_root m)) (s_new borrow qcmp m sb eb bw) (filter post (filter pre (seq (rb_root m)))).
Proof.
  intros m Hs. unfold s_new. pose proof (dig_towards_raw (rb_root m) [] (ord_sorted _ Hs)) as E.
  cbn [raw flat_map] in E. rewrite app_nil_r in E. rewrite <- E. apply clear_ok.
  - unfold raw in *. rewrite E. apply SS_filter. now apply ord_sorted.
  - apply chain_dig_towards. cbn [chain]. lia.
Qed.

Lemma s_advance_ok : forall H s L, stk_ok H s L -> stk_ok H (s_advance borrow qcmp sb eb s) (tl L).
Proof.
  intros H [[|[|e c l r] st] b] L (Hb & HL & Hs & Hc & Hh & He); cbn [s_stack s_backwards] in *; subst b.
  - cbn in HL. subst L. repeat split; auto.
  - cbn in Hc. lia.
  - unfold s_advance. cbn [s_stack s_backwards as_node]. unfold far. cbn [n_left n_right].
    cbn [raw flat_map rest app] in HL, Hs. cbn [s_current hd_error s_stack] in Hh.
    assert (Hr : raw (s_dig bw (if bw then l else r) st) = seq (if bw then l else r) ++ raw st) by apply dig_raw.
    assert (HL' : tl L = filter post (raw (s_dig bw (if bw then l else r) st))).
    { rewrite Hr. destruct L as [|a L]; [discriminate|]. cbn [filter tl] in *. destruct (post e) eqn:Ep; [now injection HL|].
      exfalso. injection Hh as <-. assert (Hin : In e (e :: L)) by now left. rewrite <- HL in Hin.
      apply filter_In in Hin as [_ Hin]. congruence. }
    rewrite HL'. apply clear_ok.
    + rewrite Hr. now inversion Hs.
    + apply chain_dig. destruct Hc as [_ Hc]. eapply chain_weak; [|exact Hc]. cbn [hgt]. destruct bw; lia.
Qed.
End Dir.

Lemma range_seq : forall bw t, filter (post bw) (filter (pre bw) (seq bw t)) = ord bw (filter inr (elems t)).
Proof using.
  intros bw t. rewrite filter_filter. unfold seq, ord, pre, post, inr. destruct bw; [|reflexivity].
  rewrite rev_filter. f_equal. apply filter_ext. intros x. apply andb_comm.
Qed.

(** ** Both stacks *)
Definition fwd_list (m : rbmap K V) (o : option (istk K V)) (F : list entry) : Prop :=
  match o with None => F = filter inr (elems (rb_root m)) | Some s => stk_ok false (hgt (rb_root m)) s F end.
Definition bwd_list (m : rbmap K V) (o : option (istk K V)) (B : list entry) : Prop :=
  match o with None => B = rev (filter inr (elems (rb_root m))) | Some s => stk_ok true (hgt (rb_root m)) s B end.

Definition ri_ok (m : rbmap K V) (i : riter K V Q) (L : list entry) : Prop :=
  ri_map i = m /\ ri_start i = sb /\ ri_end i = eb /\
  exists F B P S, fwd_list m (ri_fwd i) F /\ bwd_list m (ri_bwd i) B /\
    filter inr (elems (rb_root m)) = P ++ F /\ filter inr (elems (rb_root m)) = rev B ++ S /\
    L = skipn (length P) (rev B).

Lemma ri_new_ok : forall m, ri_ok m (ri_new m sb eb) (filter inr (elems (rb_root m))).
Proof using.
  intros m. repeat split; auto. exists (filter inr (elems (rb_root m))), (rev (filter inr (elems (rb_root m)))), [], [].
  cbn [ri_new ri_fwd ri_bwd fwd_list bwd_list length skipn app]. rewrite rev_involutive, app_nil_r. auto.
Qed.

Lemma ri_init_ok : forall bw m i L, sorted kcmp (elems (rb_root m)) -> ri_ok m i L ->
  ri_ok m (ri_init borrow qcmp bw i) L /\ (if bw then ri_bwd (ri_init borrow qcmp bw i) <> None else ri_fwd (ri_init borrow qcmp bw i) <> None).
Proof.
  intros bw m i L Hs (Hm & H1 & H2 & F & B & P & S & HF & HB & HP & HS & HL).
  unfold ri_init. destruct bw.
  - destruct (ri_bwd i) eqn:E.
    + split; [|rewrite E; discriminate]. split; [assumption|]. split; [assumption|]. split; [assumption|].
      rewrite E. exists F, B, P, S. auto.
    + split; [|discriminate]. split; [assumption|]. split; [assumption|]. split; [assumption|].
      cbn [ri_fwd ri_bwd]. exists F, B, P, S. split; [assumption|]. split; [|auto].
      cbn [bwd_list] in *. rewrite Hm, H1, H2. pose proof (s_new_ok true m Hs) as Hn. rewrite range_seq in Hn. subst B. exact Hn.
  - destruct (ri_fwd i) eqn:E.
    + split; [|rewrite E; discriminate]. split; [assumption|]. split; [assumption|]. split; [assumption|].
      rewrite E. exists F, B, P, S. auto.
    + split; [|discriminate]. split; [assumption|]. split; [assumption|]. split; [assumption|].
      cbn [ri_fwd ri_bwd]. exists F, B, P, S. split; [|auto].
      cbn [fwd_list] in *. rewrite Hm, H1, H2. pose proof (s_new_ok false m Hs) as Hn. rewrite range_seq in Hn. subst F. exact Hn.
Qed.

Lemma skipn_split : forall (P F R S : list entry), P ++ F = R ++ S ->
  exists T, F = skipn (length P) R ++ T /\ (skipn (length P) R = [] -> incl R P).
Proof using.
  induction P as [|p P IH]; intros F R S E; cbn [length skipn].
  - exists S. cbn [app] in E. split; [assumption|]. intros ->. intros x [].
  - destruct R as [|r R].
    + exists F. split; [reflexivity|]. intros _ x [].
    + cbn [app] in E. injection E as -> E. destruct (IH _ _ _ E) as (T & H1 & H2). exists T. split; [assumption|].
      intros H. apply H2 in H. intros x [<-|Hx]; [now left|right; auto].
Qed.

Lemma skipn_removelast : forall n (l : list entry), skipn n (removelast l) = removelast (skipn n l).
Proof using.
  induction n as [|n IH]; intros [|a l]; try reflexivity. cbn [skipn].
  destruct l as [|b l]; [cbn [removelast]; now destruct n|]. rewrite <- IH. reflexivity.
Qed.
Lemma last_skipn : forall n (l : list entry), skipn n l <> [] -> last_error l = last_error (skipn n l).
Proof using.
  induction n as [|n IH]; intros [|a l] H; try reflexivity. cbn [skipn] in *. rewrite <- IH by assumption.
  apply last_error_cons. intros ->. now rewrite skipn_nil in H.
Qed.

Lemma ri_empty_ok : forall m i L, sorted kcmp (elems (rb_root m)) -> ri_ok m i L ->
  ri_fwd i <> None \/ ri_bwd i <> None ->
  (ri_is_empty kcmp i = true -> L = []) /\
  (ri_is_empty kcmp i = false ->
    (forall f, ri_fwd i = Some f -> s_current f = hd_error L) /\ (forall b, ri_bwd i = Some b -> s_current b = last_error L)).
Proof.
  intros m i L Hs (Hm & H1 & H2 & F & B & P & S & HF & HB & HP & HS & HL) Hne. unfold ri_is_empty.
  pose proof (SS_filter _ _ inr _ Hs) as Hsx.
  destruct (skipn_split P F (rev B) S (eq_trans (eq_sym HP) HS)) as (T & HT & Hincl). rewrite <- HL in HT, Hincl.
  assert (Hlast : L <> [] -> last_error L = hd_error B).
  { intros H. rewrite HL in *. rewrite <- last_skipn by assumption. apply last_error_rev. }
  destruct (ri_fwd i) as [f|] eqn:Ef, (ri_bwd i) as [b|] eqn:Eb; [| | |destruct Hne; contradiction].
  - cbn [fwd_list bwd_list] in *. destruct HF as (_ & _ & _ & _ & Cf & _). destruct HB as (_ & _ & _ & _ & Cb & _).
    rewrite Cf, Cb. destruct F as [|x F]; cbn [hd_error].
    + split; [|discriminate]. intros _. destruct L; [reflexivity|discriminate].
    + destruct B as [|y B]; cbn [hd_error].
      * split; [|discriminate]. intros _. rewrite HL. cbn [rev]. apply skipn_nil.
      * assert (HG : L = [] <-> kcmp (fst x) (fst y) = Gt).
        { split; intros H.
          - apply Hincl in H as Hi. unfold sorted in Hs. rewrite HP in Hsx. apply SS_app in Hsx as (_ & _ & Hx).
            apply (cmp_gt _ (ord_k _ _ _ OL KB)). apply Hx; [|now left]. apply Hi. rewrite <- in_rev. now left.
          - destruct L as [|z L]; [reflexivity|exfalso]. cbn [app] in HT. injection HT as <- HT.
            specialize (Hlast ltac:(discriminate)). cbn [hd_error] in Hlast.
            assert (Hin : In y (x :: F)).
            { cbn [last_error] in Hlast. rewrite HT. destruct L as [|w L]; [injection Hlast as ->; now left|].
              right. apply in_app_iff. left. clear -Hlast. revert w Hlast. induction L as [|u L IH]; intros w Hl.
              - cbn in Hl. injection Hl as ->. now left.
              - right. apply IH. exact Hl. }
            rewrite HP in Hsx. apply SS_app in Hsx as (_ & Hx & _). inversion Hx as [|? ? _ Hf]; subst.
            rewrite Forall_forall in Hf. destruct Hin as [->|Hin].
            + rewrite (cmp_refl _ (ord_k _ _ _ OL KB)) in H. discriminate.
            + rewrite (Hf _ Hin) in H. discriminate. }
        destruct (kcmp (fst x) (fst y)) eqn:E; (split; [intros X; try discriminate X; now apply HG|intros X; try discriminate X; clear X]);
          (assert (Ln : L <> []) by (intros H; apply HG in H; discriminate); split;
           [intros ? X; injection X as <-; rewrite Cf; destruct L; [contradiction|]; cbn [app] in HT; now injection HT as -> _
           |intros ? X; injection X as <-; rewrite Cb, Hlast by assumption; reflexivity]).
  - split; [discriminate|]. intros _. split; [|discriminate]. intros ? X. injection X as <-.
    cbn [fwd_list bwd_list] in *. destruct HF as (_ & _ & _ & _ & Cf & _). rewrite Cf. subst B. rewrite rev_involutive in HL.
    assert (HLF : L = F).
    { rewrite HL. rewrite HP, skipn_app, Nat.sub_diag, skipn_all. reflexivity. }
    now rewrite HLF.
  - split; [discriminate|]. intros _. split; [discriminate|]. intros ? X. injection X as <-.
    cbn [fwd_list bwd_list] in *. destruct HB as (_ & _ & _ & _ & Cb & _). rewrite Cb.
    assert (P = []).
    { subst F. destruct P; [reflexivity|exfalso]. assert (length (filter inr (elems (rb_root m))) = length ((p :: P) ++ filter inr (elems (rb_root m)))) by congruence.
      rewrite app_length in H. cbn in H. lia. }
    subst P. cbn [length skipn] in HL. rewrite HL, last_error_rev. reflexivity.
Qed.

Lemma ri_next_ok : forall m i L, sorted kcmp (elems (rb_root m)) -> ri_ok m i L ->
  exists i', ri_next kcmp borrow qcmp i = Ok (hd_error L, i') /\ ri_ok m i' (tl L).
Proof.
  intros m i0 L Hs H0. unfold ri_next. destruct (ri_init_ok false m i0 L Hs H0) as (H & Hf). cbv beta iota in Hf.
  set (i := ri_init borrow qcmp false i0) in *. clearbody i. clear i0 H0.
  pose proof (ri_empty_ok m i L Hs H (or_introl Hf)) as (HE1 & HE2).
  unfold ri_current_forward, ri_advance_forward.
  destruct (ri_fwd i) as [f|] eqn:Ef; [|contradiction]. cbn [unwrap bind].
  assert (HC : (if ri_is_empty kcmp i then Ok None else Ok (s_current f)) = Ok (hd_error L)).
  { destruct (ri_is_empty kcmp i); [now rewrite HE1|]. destruct (HE2 eq_refl) as (HH & _). now rewrite (HH f). }
  rewrite HC. cbn [bind]. eexists. split; [reflexivity|].
  destruct H as (Hm & H1 & H2 & F & B & P & S & HF & HB & HP & HS & HL).
  rewrite Ef in HF. cbn [fwd_list] in HF.
  split; [assumption|]. split; [assumption|]. split; [assumption|]. cbn [ri_fwd ri_bwd].
  destruct F as [|x F].
  - exists [], B, P, S. rewrite H1, H2. split; [exact (s_advance_ok _ _ _ _ HF)|]. split; [assumption|].
    split; [assumption|]. split; [assumption|].
    assert (HN : L = []).
    { rewrite HL. apply skipn_all2. apply (f_equal (@length _)) in HP, HS. rewrite app_nil_r in HP. rewrite app_length in HS. lia. }
    rewrite <- HL, HN. reflexivity.
  - exists F, B, (P ++ [x]), S. rewrite H1, H2. split; [exact (s_advance_ok _ _ _ _ HF)|]. split; [assumption|].
    split; [now rewrite <- app_assoc|]. split; [assumption|]. rewrite HL, app_length. cbn [length].
    clear. generalize (length P) as n. intros n. revert n. induction (rev B) as [|a l IH]; intros [|n]; try reflexivity.
    cbn [skipn plus]. apply IH.
Qed.

Lemma ri_next_back_ok : forall m i L, sorted kcmp (elems (rb_root m)) -> ri_ok m i L ->
  exists i', ri_next_back kcmp borrow qcmp i = Ok (last_error L, i') /\ ri_ok m i' (removelast L).
Proof.
  intros m i0 L Hs H0. unfold ri_next_back. destruct (ri_init_ok true m i0 L Hs H0) as (H & Hf). cbv beta iota in Hf.
  set (i := ri_init borrow qcmp true i0) in *. clearbody i. clear i0 H0.
  pose proof (ri_empty_ok m i L Hs H (or_intror Hf)) as (HE1 & HE2).
  unfold ri_current_backward, ri_advance_backward.
  destruct (ri_bwd i) as [b|] eqn:Ef; [|contradiction]. cbn [unwrap bind].
  assert (HC : (if ri_is_empty kcmp i then Ok None else Ok (s_current b)) = Ok (last_error L)).
  { destruct (ri_is_empty kcmp i); [now rewrite HE1|]. destruct (HE2 eq_refl) as (_ & HH). now rewrite (HH b). }
  rewrite HC. cbn [bind]. eexists. split; [reflexivity|].
  destruct H as (Hm & H1 & H2 & F & B & P & S & HF & HB & HP & HS & HL).
  rewrite Ef in HB. cbn [bwd_list] in HB.
  split; [assumption|]. split; [assumption|]. split; [assumption|]. cbn [ri_fwd ri_bwd].
  assert (HX : exists S', filter inr (elems (rb_root m)) = rev (tl B) ++ S').
  { destruct B as [|y B]; [exists S; exact HS|]. cbn [tl rev] in *. exists (y :: S). now rewrite HS, <- app_assoc. }
  destruct HX as (S' & HS'). exists F, (tl B), P, S'. rewrite H1, H2. split; [assumption|].
  split; [exact (s_advance_ok _ _ _ _ HB)|]. split; [assumption|]. split; [assumption|].
  now rewrite HL, rev_removelast, skipn_removelast.
Qed.

(** Stack depth during iteration never exceeds the height of the tree. *)
Lemma ri_depth : forall m i L, ri_ok m i L ->
  (forall f, ri_fwd i = Some f -> length (s_stack f) <= hgt (rb_root m)) /\
  (forall b, ri_bwd i = Some b -> length (s_stack b) <= hgt (rb_root m)).
Proof using.
  intros m i L (_ & _ & _ & F & B & P & S & HF & HB & _). split; intros s E; [rewrite E in HF|rewrite E in HB]; cbn [fwd_list bwd_list] in *.
  - destruct HF as (_ & _ & _ & Hc & _). apply chain_length in Hc. lia.
  - destruct HB as (_ & _ & _ & Hc & _). apply chain_length in Hc. lia.
Qed.
End Stack.
