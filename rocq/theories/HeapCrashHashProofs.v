(** * The hash trie on the heap when user code panics: lists, buckets and nodes

    Each lemma has the form: the heap program, run on cells that stand for the node, never fails
    whichever user call unwinds and stays within its allocation budget; if it completes it leaves
    cells that stand for the result of HashModel.v, if it unwinds it leaves cells that stand for
    what [upost] allows; and it makes at most so many user calls. *)
From Coq Require Import List NArith Arith Lia Bool Permutation.
From Verif Require Import Base Spec SpecMap Sim ListModel ListProofs SparseModel SparseProofs HashModel HashProofs HashHist HashExtraProofs
  CrashModel CrashProofs
  PermSolve HeapModel HeapProofs HeapSafe HeapClient HeapList HeapListProofs HeapVec HeapVecProofs HeapHash HeapHashProofs HeapHashNodes HeapCrashHash.
Import ListNotations.
Local Open Scope prog_scope.

Section Lists.
Context {K V : Type}.
Notation C := (tcell K V).
Notation own := (@own C).
Notation ptree := (@ptree C).
Notation safe := (safe (@tkids K V)).
Notation entry := (hentry K V).
Notation node := (hnode K V).
Notation trep L s G := (lrep (T := entry) TLN TLE terep L s (last_error s) G).
Notation tchain := (chain (T := entry) TLN TLE terep).

(** A test on entries that may unwind, making at most one user call. *)
Definition xtests (p : nat -> hewh -> prog C (option (nat * bool))) (m : entry -> bool) : Prop :=
  forall n e x G, snd e = e_hash x -> lent (et e x) G ->
    safe 0 (p n e) G (fun r G' => G' = G /\
      match r with None => n = 0 | Some (n', y) => y = m x /\ n' <= n <= S n' end).

Lemma xmatches_ok : forall same h,
  xtests (xmatches same h) (fun x => (e_hash x =? h)%N && same (e_key x)).
Proof.
  intros same h n e x G E L. unfold xmatches. rewrite E. destruct (e_hash x =? h)%N; cbn [andb].
  - apply (entry_lent _ e x); trivial. apply safe_ret. split; [reflexivity|]. destruct n; auto.
  - apply safe_ret. auto.
Qed.

Lemma xtests_seq : forall A p m n e x (k : option (nat * bool) -> prog C A) n1 G Q, xtests p m -> snd e = e_hash x -> lent (et e x) G ->
  (n = 0 -> safe n1 (k None) G Q) -> (forall n', n' <= n <= S n' -> safe n1 (k (Some (n', m x))) G Q) ->
  safe n1 (let* r := p n e in k r) G Q.
Proof.
  intros A p m n e x k n1 G Q T E L S0 S1.
  seqq 0 n1 G (@nil own) (fun r G' => G' = G /\
      match r with None => n = 0 | Some (n', y) => y = m x /\ n' <= n <= S n' end).
  - exact (T n e x G E L).
  - intros [[n' y]|] G' (-> & H); rewrite app_nil_r; [|auto]. destruct H as (-> & H). auto.
Qed.

Lemma ets_drop : forall bs, safe 0 (each (drop_ptr tkids 1) (rev (map fst (map fst bs)))) (map Tree (ets bs))
  (fun (_ : unit) (G : list own) => G = []).
Proof.
  intros bs. assert (E : rev (map fst (map fst bs)) = map pa (rev (@ets K V bs))).
  { rewrite map_rev. f_equal. unfold ets. rewrite !map_map. reflexivity. }
  rewrite E. eapply safe_perm; [|apply (each_ok (drop_ptr tkids 1) (rev (ets bs)))].
  - rewrite map_rev. apply Permutation_sym, Permutation_rev.
  - intros t I. apply in_rev in I. unfold ets in I. apply in_map_iff in I as ([e x] & <- & _). apply et_drop.
Qed.

Lemma xlrf_loop_ok : forall p m, xtests p m -> forall s f bs n L G, trep L s G -> length s < f -> Forall good bs ->
  safe 0 (xlrf_loop f p n (map fst bs) L) (map Tree (ets bs) ++ G)
    (fun r G' =>
       match r with
       | Unwound L' => n < length s /\ exists s1 x s2, s = s1 ++ x :: s2 /\ trep L' s2 G'
       | Done n' r => n' <= n <= n' + length s /\ exists L' bs' G1, Forall good bs' /\
           match find m s with
           | None => r = (L', map fst bs', None) /\ map snd bs' = rev s ++ map snd bs /\ trep L' [] G1 /\
                     G' = map Tree (ets bs') ++ G1
           | Some x => exists e s1 s2, s = s1 ++ x :: s2 /\ nomatch m s1 /\ m x = true /\
                     r = (L', map fst bs', Some e) /\ good (e, x) /\ map snd bs' = rev s1 ++ map snd bs /\
                     trep L' s2 G1 /\ G' = Tree (et e x) :: map Tree (ets bs') ++ G1
           end
       end).
Proof.
  intros p m Hp. induction s as [|x s IH]; intros f bs n L G R Lf Gb; (destruct f as [|f]; [cbn in Lf; lia|]);
    cbn [xlrf_loop find].
  - assert (E : hl_len L = 0) by (destruct R as (? & ? & ? & ? & ? & ->); reflexivity). rewrite E. cbn [Nat.eqb].
    apply safe_ret. split; [lia|]. exists L, bs, G. split; trivial. splits; trivial.
  - assert (E : hl_len L = S (length s)) by (destruct R as (? & ? & ? & ? & ? & ->); reflexivity).
    rewrite E. cbn [Nat.eqb].
    destruct (tfirst_lent L x s G R) as (e & Ee & Le & First). apply First.
    eexists _, _. split; [eapply lent_incl; [exact Le|apply incl_appr, incl_refl]|].
    fold (et e x).
    seq 0 0 G (Tree (et e x) :: map Tree (ets bs)) ltac:(apply (tl_drop_first_ok L x s G R)).
    intros [L' b] G' R'. cbn [fst] in R'.
    eapply (xtests_seq _ p m n e x); trivial.
    + apply lent_in. apply in_app_iff. right. now left.
    + intros ->.
      seqq 0 0 [Tree (et e x)] (G' ++ map Tree (ets bs)) (fun (_ : unit) (G : list own) => G = []); [apply et_drop|].
      intros [] G2 ->. cbn [app].
      seqq 0 0 (map Tree (ets bs)) G' (fun (_ : unit) (G : list own) => G = []); [apply ets_drop|].
      intros [] G2 ->. apply safe_ret. split; [cbn [length]; lia|]. exists [], x, s. auto.
    + intros n' Hn. destruct (m x) eqn:Em.
      * exists (Tree (et e x) :: map Tree (ets bs) ++ G'). split; [perm|]. split; [cbn [length]; lia|].
        exists L', bs, G'. split; trivial. exists e, [], s. splits; trivial. intros y [].
      * change (e :: map fst bs) with (map fst ((e, x) :: bs)).
        eapply safe_perm; [|eapply safe_mono; [apply le_n| |apply (IH f ((e, x) :: bs) n' L' G' R')]].
        -- change (map Tree (ets ((e, x) :: bs))) with (Tree (et e x) :: map Tree (ets bs)). perm.
        -- intros [n2 r|L2] G3 H.
           ++ destruct H as (Hn2 & L2 & bs' & G1 & Gb' & H). split; [cbn [length]; lia|]. exists L2, bs', G1. split; trivial.
              destruct (find m s) as [y|].
              ** destruct H as (e' & s1 & s2 & -> & N1 & My & -> & Ge & Eb & R2 & ->).
                 exists e', (x :: s1), s2. splits; trivial.
                 --- intros z [<-|I]; auto.
                 --- rewrite Eb. cbn [map snd rev]. now rewrite <- app_assoc.
              ** destruct H as (-> & Eb & R2 & ->). splits; trivial. rewrite Eb. cbn [map snd rev]. now rewrite <- app_assoc.
           ++ destruct H as (Hn2 & s1 & y & s2 & -> & R2). split; [cbn [length]; lia|]. exists (x :: s1), y, s2. auto.
        -- cbn [length] in Lf. lia.
        -- constructor; trivial.
Qed.

Lemma xlist_remove_first_ok : forall p m, xtests p m -> forall n L s G, trep L s G ->
  safe (2 * length s) (xlist_remove_first n L p) G
    (fun r G' =>
       match r with
       | Unwound L' => n < length s /\ exists s1 x s2, s = s1 ++ x :: s2 /\ trep L' s2 G'
       | Done n' r => n' <= n <= n' + length s /\ exists G1, trep (fst r) (rf m s) G1 /\
           match find m s with
           | None => snd r = None /\ G' = G1
           | Some x => exists e, snd r = Some e /\ snd e = e_hash x /\ G' = Tree (et e x) :: G1
           end
       end).
Proof.
  intros p m Hp n L s G R. unfold xlist_remove_first.
  assert (E : hl_len L = length s) by (destruct R as (? & ? & ? & ? & ? & ->); reflexivity). rewrite E.
  assert (S := xlrf_loop_ok p m Hp s (S (length s)) [] n L G R ltac:(lia) ltac:(constructor)).
  cbn [map ets app] in S.
  seq 0 (2 * length s) G (@nil own) ltac:(exact S).
  intros [n' r|L'] G' H; rewrite app_nil_r; [|now apply safe_ret].
  destruct H as (Hn & L' & bs & G1 & Gb & H).
  destruct (find m s) as [x|] eqn:Ef.
  - destruct H as (e & s1 & s2 & -> & N1 & Mx & -> & Ge & Eb & R1 & ->). rewrite app_nil_r in Eb.
    rewrite rf_split by trivial.
    assert (Lb : length bs = length s1) by (rewrite <- (map_length snd bs), Eb; apply rev_length).
    rewrite app_length in *. cbn [length] in *.
    seq (2 * length bs) 0 (map Tree (ets bs) ++ G1) [Tree (et e x)] ltac:(apply (tpush_back_ok bs L' s2 G1 R1 Gb)).
    intros L2 G2 R2. rewrite Eb, rev_involutive in R2.
    exists (Tree (et e x) :: G2). split; [perm|]. split; [lia|]. exists G2. cbn [fst snd]. split; trivial. exists e. auto.
  - destruct H as (-> & Eb & R1 & ->). rewrite app_nil_r in Eb.
    rewrite rf_nomatch by (now apply find_none).
    assert (Lb : length bs = length s) by (rewrite <- (map_length snd bs), Eb; apply rev_length).
    seq (2 * length bs) 0 (map Tree (ets bs) ++ G1) (@nil own) ltac:(apply (tpush_back_ok bs L' [] G1 R1 Gb)).
    intros L2 G2 R2. rewrite Eb, rev_involutive, app_nil_r in R2. rewrite app_nil_r.
    apply safe_ret. split; [lia|]. exists G2. cbn [fst snd]. auto.
Qed.

(** Reading. *)
Definition xfound (B n : nat) (G : list own) (o : option entry) (r : crash unit (option hewh)) : Prop :=
  match r with
  | Unwound _ => n < B
  | Done n' r => n' <= n <= n' + B /\ found G o r
  end.

Lemma xfind_loop_ok : forall p m, xtests p m -> forall s us (G : list own) n rem, tchain s us ->
  (forall t, In t us -> lent t G) -> length s <= rem ->
  safe 0 (xfind_loop p n rem (hd_error (map pa us))) G (fun r G' => G' = G /\ xfound (length s) n G (find m s) r).
Proof.
  intros p m Hp. induction s as [|x s IH]; intros us G n rem Ch H L.
  - inversion Ch; subst. cbn [map hd_error]. destruct rem; cbn [xfind_loop]; apply safe_ret; (split; [reflexivity|]);
      (split; [lia|reflexivity]).
  - destruct (chain_cons_lent x s us G Ch H) as (a & v & e & us' & -> & E & Ch' & Ln & Lv & Le & H').
    cbn [length] in *. destruct rem as [|rem]; [lia|]. cbn [xfind_loop].
    eexists _, _. split; [exact Ln|]. intros _. cbn [t_isN].
    eexists _, _. split; [exact Lv|]. intros _. cbn [t_isE].
    apply (xtests_seq _ p m n e x); trivial.
    + intros ->. apply safe_ret. split; [reflexivity|]. cbn. lia.
    + intros n' Hn. cbn [find]. destruct (m x).
      * apply safe_ret. split; [reflexivity|]. split; [lia|]. exists e. auto.
      * eapply safe_mono; [apply le_n| |apply (IH us' G n' rem Ch' H'); lia].
        intros [n2 r|u] G' (-> & Hf); (split; [reflexivity|]); cbn [xfound] in *; [|lia].
        destruct Hf as (Hf1 & Hf2). split; [lia|exact Hf2].
Qed.

(** The number of entries of a bucket. *)
Definition blen (bk : hbucket K V) : nat := match bk with BSingle _ => 1 | BCollision l => l_len l end.

Lemma xbk_find_ok : forall p m, xtests p m -> forall n bk c ts (G : list own) o, ncont (HLeaf bk) c ts ->
  (forall t, In t ts -> lent t G) -> b_find m bk = Ok o ->
  safe 0 (xbk_find p n c) G (fun r G' => G' = G /\ xfound (blen bk) n G o r).
Proof.
  intros p m Hp n bk c ts G o Hc H E. inversion Hc as [|e x Ex|L l s ts' R1 R2]; subst; cbn [xbk_find b_find blen] in *.
  - injection E as <-. assert (Le : lent (et e x) G) by (apply H; now left).
    apply (xtests_seq _ p m n e x); trivial.
    + intros ->. apply safe_ret. split; [reflexivity|]. cbn. lia.
    + intros n' Hn. apply safe_ret. split; [reflexivity|]. split; [lia|]. destruct (m x); [exists e; auto|reflexivity].
  - rewrite (l_elems_ok l s R1) in E. injection E as <-.
    assert (El : l_len l = length s) by apply R1. rewrite El.
    destruct (trep_lent _ _ _ G R2 H) as (us & Ch & Lu & -> & ->). now apply xfind_loop_ok.
Qed.

Lemma xtentry_mut_ok : forall n a (c : C),
  safe 1 (xtentry_mut n a) [Tree (PT a c [])]
    (fun r G => match r with
                | Done m (a', c') => c' = c /\ G = [Held a'] /\ m <= n <= m + 2
                | Unwound _ => n < 2 /\ G = [Tree (PT a c [])]
                end).
Proof.
  intros n a c. unfold xtentry_mut. exists c, [], []. split; [apply Permutation_refl|]. split.
  - exists c, []. split; [exists (PT a c []); split; [now left|constructor]|].
    intros Sh. inversion Sh as [? ? ? Kk Fs]; subst. cbn [map] in Kk. rewrite Kk.
    destruct n as [|[|n]]; cbn [tucall]; [apply safe_ret; split; [lia|reflexivity]..|].
    cbn [clone_all]. exists 0. split; [reflexivity|]. intros a'.
    change (drop_ptr tkids 2 a) with (drop_ptr (@tkids K V) 2 (pa (PT a c []))).
    eapply (safe_seq _ _ _ 0 0 _ _ [Tree (PT a c [])] [Held a']); [apply safe_drop; cbn; lia|perm| |lia].
    intros [] G' ->. apply safe_ret. split; [reflexivity|]. split; [reflexivity|]. lia.
  - intros _ _. exists [Held a]. split; [apply Permutation_refl|]. split; [reflexivity|]. split; [reflexivity|]. lia.
Qed.
End Lists.

(** ** What unwinding leaves *)
Section Post.
Variable ubits : N.
Variable dbg : bool.
Variable b : N.
Hypothesis Hb : (0 < b)%N.
Hypothesis Hdeg : (2 ^ b <= ubits)%N.
Hypothesis Hub : (ubits <= 64)%N.
Context {K V : Type}.
Notation entry := (hentry K V).
Notation node := (hnode K V).
Notation degree := (2 ^ b)%N.
Notation D := (D b).
Notation wrep := (@hrepg ubits b K V false).

(** A trie that may have lost entries: collision lists may be short or empty, and a branch may have
    nothing below it, but every entry is where its hash says. *)
Inductive lchl (R : node -> list entry -> Prop) (dig : entry -> N) : list (N * node) -> list entry -> Prop :=
| lchl_nil : lchl R dig [] []
| lchl_cons : forall i c es al rest, R c es -> (forall e, In e es -> dig e = i) ->
    lchl R dig al rest -> lchl R dig ((i, c) :: al) (es ++ rest).

Fixpoint lax (r d : nat) (n : node) (es : list entry) : Prop :=
  match n with
  | HLeaf (BSingle e) => es = [e]
  | HLeaf (BCollision l) => r = 0 /\ l_rep l es
  | HBranch s =>
      match r with
      | 0 => False
      | S r' => exists al, sa_wf ubits s al /\ lchl (lax r' (S d)) (fun e => idx b d (e_hash e)) al es
      end
  end.

Lemma chl_lchl : forall st (R1 R2 : node -> list entry -> Prop) dig al es,
  (forall n es, R1 n es -> R2 n es) -> @chl K V st R1 dig al es -> lchl R2 dig al es.
Proof using. intros st R1 R2 dig al es HR H. induction H; constructor; auto. Qed.
Lemma wrep_lax : forall r d n es, wrep r d n es -> lax r d n es.
Proof using.
  induction r as [|r IH]; intros d n es H; destruct n as [s|[e|l]]; cbn [hrepg lax] in *; auto.
  - destruct H as (E & H & _). auto.
  - destruct H as (al & Hw & Hc). exists al. split; [exact Hw|]. eapply chl_lchl; [|exact Hc]. auto.
  - destruct H as (E & _). discriminate.
Qed.

Lemma lchl_app : forall R dig l1 l2 es, lchl R dig (l1 ++ l2) es <->
  exists es1 es2, es = es1 ++ es2 /\ lchl R dig l1 es1 /\ lchl R dig l2 es2.
Proof using.
  intros R dig. induction l1 as [|[i c] l1 IH]; intros l2 es; cbn [app]; split.
  - intros H. exists [], es. repeat split; [constructor|assumption].
  - intros (es1 & es2 & -> & H1 & H2). inversion H1; subst. assumption.
  - intros H. inversion H as [|? ? ec ? rest Hr Hd Hrest]; subst.
    apply IH in Hrest as (es1 & es2 & -> & H1 & H2).
    exists (ec ++ es1), es2. rewrite app_assoc. repeat split; [|assumption]. constructor; auto.
  - intros (es1 & es2 & -> & H1 & H2).
    inversion H1 as [|? ? ec ? rest Hr Hd Hrest]; subst.
    rewrite <- app_assoc. constructor; auto. apply IH. eauto.
Qed.
Lemma lchl_in : forall R dig al es e, lchl R dig al es -> In e es -> exists p, In p al /\ fst p = dig e.
Proof using.
  intros R dig al es e H. induction H as [|i c ec al rest Hr Hd Hrest IH]; intros Hin; [destruct Hin|].
  apply in_app_iff in Hin as [Hin|Hin].
  - exists (i, c). split; [now left|]. symmetry. now apply Hd.
  - destruct (IH Hin) as (p & Hp & E). exists p. split; [now right|assumption].
Qed.
Lemma lchl_hole : forall R dig m i l1 l2 es, lchl R dig (l1 ++ l2) es -> SparseProofs.below i l1 -> SparseProofs.above i l2 ->
  (forall e, m e = true -> dig e = i) -> nomatch m es.
Proof using.
  intros R dig m i l1 l2 es H B A Hm e He. destruct (m e) eqn:E; [|reflexivity].
  destruct (lchl_in _ _ _ _ _ H He) as (p & Hp & Ep). rewrite (Hm e E) in Ep.
  apply in_app_iff in Hp as [Hp|Hp]; [specialize (B p Hp); clear - B Ep; lia|specialize (A p Hp); clear - A Ep; lia].
Qed.
Lemma lchl_focus : forall R dig m i c l1 l2 es, lchl R dig (l1 ++ (i, c) :: l2) es ->
  SparseProofs.below i l1 -> SparseProofs.above i l2 -> (forall e, m e = true -> dig e = i) ->
  exists es1 ec es2, es = es1 ++ ec ++ es2 /\ nomatch m es1 /\ nomatch m es2 /\
    lchl R dig l1 es1 /\ lchl R dig l2 es2 /\ R c ec /\ (forall e, In e ec -> dig e = i).
Proof using.
  intros R dig m i c l1 l2 es H B A Hm. apply lchl_app in H as (es1 & es2 & -> & H1 & H2).
  inversion H2 as [|? ? ec ? rest Hr Hd Hrest]; subst.
  exists es1, ec, rest. repeat split; auto.
  - eapply (lchl_hole R dig m i l1 []); [rewrite app_nil_r; eassumption|assumption|intros ? []|assumption].
  - eapply (lchl_hole R dig m i [] l2); [eassumption|intros ? []|assumption|assumption].
Qed.
Lemma lchl_put : forall R dig i c l1 l2 es1 ec es2, lchl R dig l1 es1 -> lchl R dig l2 es2 ->
  R c ec -> (forall e, In e ec -> dig e = i) -> lchl R dig (l1 ++ (i, c) :: l2) (es1 ++ ec ++ es2).
Proof using. intros. apply lchl_app. exists es1, (ec ++ es2). repeat split; auto. constructor; auto. Qed.

Lemma lax_tall : forall r d (n : node) es, lax r d n es -> tall r n.
Proof using.
  induction r as [|r IH]; intros d n es H; destruct n as [s|bk]; try exact I.
  - destruct H.
  - cbn [lax tall] in *. destruct H as (al & (_ & Ea & _) & Hc). rewrite Ea. clear - Hc IH.
    induction Hc as [|i c ec al rest Hr Hd Hrest IHc]; cbn [map snd]; constructor; eauto.
Qed.

(** Lookups in such a trie find what is left. *)
Lemma lax_get : forall Q borrow qeq (q : Q) h r d n es fuel, lax r d n es -> (d + r = D)%nat -> (r < fuel)%nat ->
  hn_get ubits dbg borrow qeq fuel q h n d degree = Ok (find (matches borrow qeq q h) es).
Proof using Hb Hdeg Hub.
  intros Q borrow qeq q h. set (m := matches borrow qeq q h).
  assert (Hm : forall d (e : entry), m e = true -> idx b d (e_hash e) = idx b d h).
  { intros d e H. unfold m, matches in H. apply andb_true_iff in H as [H _]. apply N.eqb_eq in H. now rewrite H. }
  induction r as [|r IH]; intros d n es fuel H Hd Hf; (destruct fuel as [|fuel]; [lia|]); cbn [hn_get];
    destruct n as [s|[e|l]]; cbn [lax] in H.
  - destruct H.
  - subst es. unfold b_get, b_find. cbn [find]. fold m. now destruct (m e).
  - destruct H as (_ & H). unfold b_get, b_find. rewrite (l_elems_ok l es H). reflexivity.
  - destruct H as (al & Hw & Hc). rewrite (index_ok ubits dbg b Hb Hdeg Hub) by lia.
    destruct (Nat.ltb_spec d D) as [_|]; [|lia]. cbn [bind unwrap].
    destruct (sa_access ubits dbg (Hu0 ubits dbg b Hb Hdeg Hub) s al (idx b d h) Hw (idx_lt ubits dbg b Hb Hdeg Hub d h))
      as [(l1 & l2 & -> & B & A & -> & _)|(l1 & c & l2 & -> & B & A & -> & _)]; cbn [bind].
    + rewrite nomatch_find; [reflexivity|]. exact (lchl_hole _ _ m _ _ _ _ Hc B A (Hm d)).
    + destruct (lchl_focus _ _ m _ _ _ _ _ Hc B A (Hm d)) as (es1 & ec & es2 & -> & N1 & N2 & C1 & C2 & Hr & _).
      rewrite find_focus by assumption. apply IH; [assumption|lia|lia].
  - subst es. unfold b_get, b_find. cbn [find]. fold m. now destruct (m e).
  - destruct H as (H & _). discriminate.
Qed.

(** What unwinding may leave of a node: without the flag the same entries, in a sound trie; with it
    fewer, those lost having the hash [h], which at least two had. *)
Definition upost (h : N) (d : nat) (n : node) (lost : bool) (n' : node) : Prop :=
  forall r es, wrep r d n es -> d + r = D -> @on_path b K V h d es ->
    (forall e, In e es -> (e_hash e < 2 ^ 64)%N) -> (h < 2 ^ 64)%N ->
    if lost then 2 <= length (filter (same_hash h) es) /\ exists es' ls, lax r d n' es' /\ ls <> [] /\
                   Permutation (es' ++ ls) es /\ forall e, In e ls -> e_hash e = h
    else exists es', wrep r d n' es' /\ Permutation es' es.

Lemma upost_refl : forall h d n, upost h d n false n.
Proof using. intros h d n r es H _ _ _ _. exists es. split; [exact H|reflexivity]. Qed.

Lemma upost_perm : forall h d l l' s s', l_rep l s -> l_rep l' s' -> Permutation s' s ->
  upost h d (HLeaf (BCollision l)) false (HLeaf (BCollision l')).
Proof using.
  intros h d l l' s s' R R' P r es H _ _ _ _. assert (E : es = s).
  { destruct R as (<- & _). destruct r; destruct H as (_ & (<- & _) & _); reflexivity. }
  subst es. exists s'. split; [|exact P]. destruct r; cbn [hrepg] in *; destruct H as (E & _ & L); [|discriminate].
  splits; trivial; try apply R'. now rewrite (Permutation_length P).
Qed.

Lemma filter_all : forall h (es : list entry), (forall e, In e es -> e_hash e = h) -> filter (same_hash h) es = es.
Proof using.
  induction es as [|a es IH]; intros H; [reflexivity|]. cbn [filter]. unfold same_hash at 1.
  rewrite (H a (or_introl eq_refl)), N.eqb_refl, IH; [reflexivity|]. intros e He. apply H. now right.
Qed.

Lemma upost_cut : forall h d l l' s1 x s2, l_rep l (s1 ++ x :: s2) -> l_rep l' s2 ->
  upost h d (HLeaf (BCollision l)) true (HLeaf (BCollision l')).
Proof using dbg Hb Hdeg Hub.
  intros h d l l' s1 x s2 R R' r es H Hd Hp Hr Hh. assert (E : es = s1 ++ x :: s2).
  { destruct R as (<- & _). destruct r; destruct H as (_ & (<- & _) & _); reflexivity. }
  destruct r; cbn [hrepg] in H; destruct H as (E0 & _ & L); [|discriminate].
  assert (Ed : d = D) by lia. rewrite Ed in Hp. assert (A := path_end ubits dbg b Hb Hdeg Hub h es Hp Hr Hh).
  rewrite (filter_all h es A). split; [exact L|]. subst es.
  exists s2, (s1 ++ [x]). splits.
  - cbn [lax]. auto.
  - destruct s1; discriminate.
  - rewrite Permutation_app_comm, <- app_assoc. reflexivity.
  - intros e I. apply A. apply in_app_iff. apply in_app_iff in I as [I|[<-|[]]]; [now left|right; now left].
Qed.

Lemma upost_branch : forall h d s i c w fl c',
  index_from_hash dbg h d degree = Ok (Some i) -> sa_get_mut ubits dbg s i = Ok (Some (c, w)) ->
  upost h (S d) c fl c' -> upost h d (HBranch s) fl (HBranch (w c')).
Proof using Hb Hdeg Hub.
  intros h d s i c w fl c' Ei Eg Hc r es H Hd Hpath Hr Hh.
  destruct r as [|r]; [destruct H|]. cbn [hrepg] in H. destruct H as (al & Hw & Hch).
  rewrite (index_ok ubits dbg b Hb Hdeg Hub) in Ei by lia.
  destruct (Nat.ltb_spec d D) as [_|]; [|lia]. assert (i = idx b d h) by congruence. subst i. clear Ei.
  destruct (sa_access ubits dbg (Hu0 ubits dbg b Hb Hdeg Hub) s al (idx b d h) Hw (idx_lt ubits dbg b Hb Hdeg Hub d h))
    as [(l1 & l2 & -> & B & A & _ & Eg' & _)|(l1 & c0 & l2 & -> & B & A & _ & (w0 & Eg' & Hset) & _)];
    rewrite Eg in Eg'; [discriminate|]. assert (c0 = c) by congruence. assert (w0 = w) by congruence. subst c0 w0.
  assert (Hsm : forall e : entry, same_hash h e = true -> idx b d (e_hash e) = idx b d h).
  { intros e He. apply N.eqb_eq in He. now rewrite He. }
  destruct (chl_focus ubits dbg b Hb Hdeg Hub _ _ (same_hash h) _ _ _ _ _ Hch B A Hsm)
    as (es1 & ec & es2 & -> & N1 & N2 & C1 & C2 & Hrc & Hne & Hdg & _).
  assert (Hin : forall e, In e ec -> In e (es1 ++ ec ++ es2)) by (intros; rewrite !in_app_iff; auto).
  assert (Hpath' : on_path b h (S d) ec).
  { intros e He. rewrite !(digits_step ubits dbg b Hb Hdeg Hub). rewrite (Hdg e He). f_equal. apply Hpath. auto. }
  specialize (Hc r ec Hrc ltac:(lia) Hpath' ltac:(auto) Hh). destruct fl.
  - destruct Hc as (L & ec' & ls & Hl & Hls & Hp & Hlost). split.
    { rewrite !filter_app, !app_length. lia. }
    exists (es1 ++ ec' ++ es2), ls. splits; trivial.
    + cbn [lax]. exists (l1 ++ (idx b d h, c') :: l2). split; [apply Hset|].
      apply lchl_put; auto.
      * eapply chl_lchl; [|exact C1]. intros; now apply wrep_lax.
      * eapply chl_lchl; [|exact C2]. intros; now apply wrep_lax.
      * intros e He. apply Hdg. apply (Permutation_in _ Hp). apply in_app_iff. now left.
    + rewrite <- !app_assoc. apply Permutation_app_head. rewrite <- Hp, <- app_assoc. apply Permutation_app_head.
      apply Permutation_app_comm.
  - destruct Hc as (ec' & Hl & Hp). exists (es1 ++ ec' ++ es2). split.
    + cbn [hrepg]. exists (l1 ++ (idx b d h, c') :: l2). split; [apply Hset|].
      apply (chl_put ubits dbg b Hb Hdeg Hub); auto.
      * intros ->. apply Permutation_nil in Hp. auto.
      * intros e He. apply Hdg. now apply (Permutation_in _ Hp).
      * discriminate.
    + apply Permutation_app_head, Permutation_app_tail. exact Hp.
Qed.

(** A leaf that was split before the unwinding. *)
Lemma upost_split : forall h d old fuel n1 x keq fl n', index_from_hash dbg h d degree <> Ok None ->
  hn_insert ubits dbg keq fuel old new_empty_branch d degree = Ok (n1, x) -> upost h d n1 fl n' ->
  upost h d (HLeaf (BSingle old)) fl n'.
Proof using Hb Hdeg Hub.
  intros h d old fuel n1 x keq fl n' Ei E Hp r es H Hd Hpath Hr Hh.
  assert (Ees : es = [old]) by (destruct r; exact H). subst es.
  destruct r as [|r].
  - exfalso. rewrite (index_ok ubits dbg b Hb Hdeg Hub) in Ei by lia.
    destruct (Nat.ltb_spec d D) as [|_]; [lia|]. now apply Ei.
  - exact (Hp (S r) [old] (insert_empty_rep ubits dbg b Hb Hdeg Hub keq r d old fuel n1 x Hd E) Hd Hpath Hr Hh).
Qed.
End Post.
