(** * Steps of HashTrieMap: the lists of buckets and the nodes (for C50)

    As in HeapHashProofs.v and HeapHashNodes.v, with the steps counted: [dear]
    in place of [safe].  An allocation takes [1 + cr] steps, freeing a cell
    gives [cr] back; a cell holds at most [W] pointers. *)
From Coq Require Import List NArith Arith Lia Bool Permutation.
From Verif Require Import Base Spec SpecMap Sim ListModel ListProofs SparseModel SparseProofs HashModel HashProofs
  PermSolve HeapModel HeapProofs HeapSafe HeapClient HeapList HeapListProofs HeapVec HeapVecProofs HeapHash
  HeapHashProofs HeapHashNodes HeapHashMap HeapWork HeapWorkSeq.
Import ListNotations.
Local Open Scope prog_scope.

Ltac dseq n1 n2 G1 F Q1 := eapply (dear_seq _ _ _ _ _ n1 n2 _ _ G1 F Q1); [|perm| |lia].

(** ** Further rules for [dear] *)
Section Rules.
Context {C : Type} (kids : C -> list addr) (cr : nat) (fine : C -> Prop).
Notation own := (@own C).
Notation ptree := (@ptree C).
Notation dear := (dear kids cr fine).

Lemma dear_post : forall {A} (p : prog C A) n m G (Q Q' : A -> list own -> Prop),
  dear n p G Q -> n <= m -> (forall x G, Q x G -> Q' x G) -> dear m p G Q'.
Proof.
  intros A p n m G Q Q' S L W. eapply (dear_frame _ _ _ _ n m G G [] Q); [exact S|perm| |exact L].
  intros x G' q. exists G'. split; [perm|auto].
Qed.

Lemma dear_new : forall {A} n c ts (k : addr -> prog C A) G G' Q,
  1 + cr <= n -> fine c -> Permutation G (map Tree ts ++ G') -> kids c = map pa ts ->
  (forall a, dear (n - (1 + cr)) (k a) (Tree (PT a c ts) :: G') Q) -> dear n (New c k) G Q.
Proof. intros A n c ts k G G' Q L F P E S. exists (n - (1 + cr)), ts, G'. splits; trivial; lia. Qed.

Lemma dear_clone : forall {A} n a c ts (k : prog C A) G Q,
  lent (PT a c ts) G -> 1 <= n -> dear (n - 1) k (Tree (PT a c ts) :: G) Q -> dear n (Clone a k) G Q.
Proof. intros A n a c ts k G Q Lt L S. exists (n - 1), c, ts. splits; trivial; lia. Qed.

Lemma dear_read_fine : forall {A} n a c ts (k : C -> prog C A) G Q,
  lent (PT a c ts) G -> 1 <= n -> (fine c -> dear (n - 1) (k c) G Q) -> dear n (Read a k) G Q.
Proof. intros A n a c ts k G Q Lt L S. exists (n - 1), c, ts. splits; [lia|exact Lt|auto]. Qed.

Lemma dear_fill : forall {A} n a c ts (k : prog C A) G G' Q,
  1 <= n -> fine c -> Permutation G (Held a :: map Tree ts ++ G') -> kids c = map pa ts ->
  dear (n - 1) k (Tree (PT a c ts) :: G') Q -> dear n (Fill a c k) G Q.
Proof. intros A n a c ts k G G' Q L F P E S. exists (n - 1), ts, G'. splits; trivial; lia. Qed.

Lemma dear_dec : forall {A} n a c ts (k : option C -> prog C A) G G' Q,
  1 <= n -> Permutation G (Tree (PT a c ts) :: G') -> dear (n - 1) (k None) G' Q ->
  (shaped kids (PT a c ts) -> alone a G' -> fine c -> dear (cr + (n - 1)) (k (Some c)) (map Tree ts ++ G') Q) ->
  dear n (Dec a k) G Q.
Proof. intros A n a c ts k G G' Q L P S1 S2. exists (n - 1), c, ts, G'. splits; trivial; lia. Qed.

Lemma dear_clone_all : forall {A} (ts : list ptree) n (k : prog C A) G Q,
  Forall (fun t => lent t G) ts -> length ts <= n -> dear (n - length ts) k (map Tree ts ++ G) Q ->
  dear n (clone_all (map pa ts) k) G Q.
Proof.
  intros A ts. induction ts as [|t ts IH]; intros n k G Q F L S; cbn [map clone_all length] in *.
  { now rewrite Nat.sub_0_r in S. }
  apply Forall_cons_iff in F as [Lt F]. destruct t as [a c us]. cbn [pa].
  eapply dear_clone; [exact Lt|lia|]. apply IH.
  - eapply Forall_impl; [|exact F]. intros t T. eapply lent_incl; [exact T|]. apply incl_tl, incl_refl.
  - lia.
  - eapply dear_perm; [|eapply dear_le; [exact S|lia]]. perm.
Qed.

Lemma alone_lent : forall a c ts (G : list own), lent (PT a c ts) G -> alone a G -> False.
Proof. intros a c ts G (t' & I & S) Al. apply (Al _ I). apply (sub_pas _ _ S). cbn. now left. Qed.

(** Dropping one of two pointers to a cell is one step. *)
Lemma dear_drop_shared : forall f t G n (Q : unit -> list own -> Prop),
  lent t G -> Q tt G -> 1 <= n -> dear n (drop_ptr kids (S f) (pa t)) (Tree t :: G) Q.
Proof.
  intros f [a c ts] G n Q L q Ln. rewrite drop_ptr_eq. cbn [pa].
  eapply dear_dec; [exact Ln|apply Permutation_refl|now apply dear_ret|].
  intros _ Al. exfalso. eapply alone_lent; eauto.
Qed.

(** Dropping a pointer takes at most three steps for each cell below it. *)
Fixpoint psize (t : ptree) : nat := match t with PT _ _ ts => S (list_sum (map psize ts)) end.

Lemma dear_drop : forall f t, pdepth t <= f ->
  dear (3 * psize t) (drop_ptr kids f (pa t)) [Tree t] (fun _ G => G = []).
Proof.
  induction f as [|f IH]; intros [a c ts] D; cbn [pdepth] in D; [lia|].
  rewrite drop_ptr_eq. cbn [pa psize].
  apply (dear_dec _ _ c ts _ _ []); [lia|apply Permutation_refl|now apply dear_ret|].
  intros Sh _ _. inversion Sh as [? ? ? K Fs]; subst. rewrite K. rewrite app_nil_r.
  exists (cr + (3 * list_sum (map psize ts) + 1)). split; [lia|].
  dseq (3 * list_sum (map psize ts)) 1 (map (@Tree C) ts) (@nil own) (fun (_ : unit) (G : list own) => G = []).
  - clear Sh K Fs. assert (D' : list_max (map pdepth ts) <= f) by lia.
    clear D. induction ts as [|t ts IHts]; [now apply dear_ret|].
    cbn [map]. rewrite drop_all_cons. cbn [map list_max fold_right] in D'.
    change (fold_right Nat.max 0 (map pdepth ts)) with (list_max (map pdepth ts)) in D'.
    change (list_sum (psize t :: map psize ts)) with (psize t + list_sum (map psize ts)).
    dseq (3 * psize t) (3 * list_sum (map psize ts)) [Tree t] (map (@Tree C) ts) (fun (_ : unit) (G : list own) => G = []).
    + apply IH. lia.
    + intros [] G' ->. apply IHts. lia.
  - intros [] G' ->. exists 0. split; [reflexivity|]. now apply dear_ret.
Qed.

Lemma dear_make_mut : forall a c ts,
  dear (6 + cr + 2 * length ts) (make_mut kids a) [Tree (PT a c ts)]
    (fun r G => exists a', r = (a', c) /\ G = Held a' :: map Tree ts).
Proof.
  intros a c ts. unfold make_mut. exists (5 + cr + 2 * length ts), c, ts, [].
  split; [lia|]. split; [apply Permutation_refl|]. split.
  - exists (4 + cr + 2 * length ts), c, ts. split; [lia|]. split; [apply lent_in; now left|].
    intros Sh _. inversion Sh as [? ? ? K Fs]; subst. rewrite K.
    apply dear_clone_all; [|lia|].
    + rewrite Forall_forall. intros t T. eapply lent_kid; [apply lent_in; now left|exact T].
    + exists (3 + length ts). split; [lia|]. intros a'.
      dseq (3 + length ts) 0 (Tree (PT a c ts) :: map (@Tree C) ts) [@Held C a']
        (fun (_ : unit) (G : list own) => G = map Tree ts).
      * rewrite drop_ptr_eq. apply (dear_dec _ _ c ts _ _ (map Tree ts));
          [lia|apply Permutation_refl|now apply dear_ret|].
        intros _ _ _. rewrite K. exists (cr + (1 + length ts)). split; [lia|].
        assert (X : forall us, incl us ts ->
          dear (length us) (drop_all kids 1 (map pa us)) (map Tree us ++ map Tree ts) (fun _ G => G = map Tree ts)).
        { induction us as [|t us IH]; intros I; [now apply dear_ret|]. cbn [map length app]. rewrite drop_all_cons.
          dseq 1 (length us) (Tree t :: map (@Tree C) us ++ map (@Tree C) ts) (@nil own)
            (fun (_ : unit) (G : list own) => G = map Tree us ++ map Tree ts).
          - apply dear_drop_shared; trivial. apply lent_in. apply in_app_iff. right. apply in_map. apply I. now left.
          - intros [] G' ->. rewrite app_nil_r. apply IH. intros y Iy. apply I. now right. }
        dseq (length ts) 1 (map (@Tree C) ts ++ map (@Tree C) ts) (@nil own)
          (fun (_ : unit) (G : list own) => G = map Tree ts); [apply X, incl_refl|].
        intros [] G' ->. rewrite app_nil_r. exists 0. split; [reflexivity|]. now apply dear_ret.
      * intros [] G' ->. exists (Held a' :: map Tree ts). split; [perm|]. eauto.
  - intros _ _ _. apply dear_ret. exists a. split; [reflexivity|]. rewrite app_nil_r. reflexivity.
Qed.
End Rules.

Section Lists.
Context {K V : Type} (cr W : nat).
Hypothesis HW : 2 <= W.
Notation C := (tcell K V).
Notation own := (@own C).
Notation ptree := (@ptree C).
Notation entry := (hentry K V).
Notation node := (hnode K V).
Notation slim := (fun c : C => length (tkids c) <= W).
Notation dear := (dear (@tkids K V) cr slim).
Notation trep L s G := (lrep (T := entry) TLN TLE terep L s (last_error s) G).
Notation tchain := (chain (T := entry) TLN TLE terep).
Notation elemt := (elemt (T := entry) TLE terep).
Notation lastt := (lastt (T := entry) TLE terep).

(** ** Entries and lists *)
Lemma d_entry_drop : forall e x f n, 3 <= n ->
  dear n (drop_ptr tkids (S f) (fst e)) [Tree (et e x)] (fun _ G => G = []).
Proof.
  intros e x f n L. eapply dear_le; [apply (dear_drop tkids cr slim (S f) (et e x))|exact L]. cbn. lia.
Qed.

Lemma d_elem_drop : forall x t f n, elemt x t -> 6 <= n ->
  dear n (drop_ptr tkids (S (S f)) (pa t)) [Tree t] (fun _ G => G = []).
Proof.
  intros x t f n E L. destruct E as [v e ts (-> & _)].
  eapply dear_le; [apply (dear_drop tkids cr slim (S (S f)) (PT v (TLE e) [et e x]))|exact L]. cbn. lia.
Qed.

Lemma d_last_drop : forall us lo tl n, lastt us lo tl -> (lo <> None -> 6 <= n) ->
  dear n (drop_opt tkids 2 (hd_error (map pa tl))) (map Tree tl) (fun _ G => G = []).
Proof.
  intros us lo tl n H L. destruct H as [|x t E]; cbn [map hd_error drop_opt]; [now apply dear_ret|].
  apply (d_elem_drop x); [exact E|]. apply L. discriminate.
Qed.

Lemma d_clone_opt : forall A us (k : prog C A) n Gx Q, (us = [] \/ exists u, us = [u]) ->
  (forall u, In u us -> lent u Gx) -> 1 <= n ->
  dear (n - 1) k (map Tree us ++ Gx) Q -> dear n (clone_opt (hd_error (map pa us)) k) Gx Q.
Proof.
  intros A us k n Gx Q [->|([a c vs] & ->)] Lu Ln S; cbn [map hd_error clone_opt pa].
  - eapply dear_le; [exact S|lia].
  - eapply dear_clone; [apply Lu; now left|exact Ln|exact S].
Qed.

Lemma kids_le : forall c (ts : list ptree), @tkids K V c = map pa ts -> length ts <= W -> length (tkids c) <= W.
Proof. intros c ts -> L. now rewrite map_length. Qed.

Lemma tl_push_dear : forall L s G e x, trep L s G -> snd e = e_hash x ->
  dear (3 + 2 * cr) (tl_push e L) (Tree (et e x) :: G) (fun L' G' => trep L' (x :: s) G').
Proof.
  intros L s G e x R Ee. rewrite last_error_cons. unfold tl_push, hl_push.
  apply (dear_new _ _ _ _ _ [et e x] _ _ G); [lia|cbn; lia|perm|reflexivity|]. intros v.
  set (t := PT v (TLE e) [et e x]).
  assert (Et : elemt x t) by (constructor; now split).
  destruct R as (ts & tl & -> & Ch & Lt & ->). unfold hl_push_ptr. cbn [hl_len hl_head HeapList.hl_last].
  assert (Fin : forall tl' lo' n, (forall a c, lastt [PT a c (t :: ts)] lo' tl') -> 1 + cr <= n ->
    lo' = match s with [] => Some x | _ => last_error s end ->
    dear n (New (TLN v (hd_error (map pa ts)))
              (fun a => Ret (mkHL (Some a) (hd_error (map pa tl')) (length s + 1))))
      (Tree t :: map Tree ts ++ map Tree tl')
      (fun L' G' => lrep (T := entry) TLN TLE terep L' (x :: s) (match s with [] => Some x | _ => last_error s end) G')).
  { intros tl' lo' n Lt' Ln El. apply (dear_new _ _ _ _ _ (t :: ts) _ _ (map Tree tl')); [lia| |perm| |].
    - cbn [tkids length]. rewrite (chain_opt _ _ _ _ _ Ch), map_length.
      destruct (chain_one _ _ _ _ _ Ch) as [->|(u & ->)]; cbn [length]; lia.
    - cbn [tkids]. rewrite (chain_opt _ _ _ _ _ Ch). reflexivity.
    - intros a. apply dear_ret.
      exists [PT a (TLN v (hd_error (map pa ts))) (t :: ts)], tl'. splits.
      + now rewrite map_app.
      + apply (ch_cons TLN TLE terep x s t ts a); trivial.
      + now rewrite <- El.
      + cbn. f_equal. lia. }
  rewrite map_app. destruct s as [|y s].
  - cbn [length Nat.eqb]. inversion Ch; subst ts. cbn [map app]. inversion Lt; subst tl.
    cbn [map hd_error drop_opt pbind].
    apply (dear_clone _ _ _ _ _ (TLE e) [et e x]); [apply lent_in; now left|lia|]. fold t. cbn [pbind].
    apply (Fin [t] (Some x)); [|lia|trivial]. intros. constructor; [trivial|constructor].
  - cbn [length Nat.eqb pbind]. apply (Fin tl (last_error (y :: s))); trivial; [|lia]. intros. inversion Ch; subst ts.
    clear Fin. destruct Lt as [|z u Eu En]; [discriminate|]. constructor; [trivial|]. now constructor.
Qed.

Lemma tl_drop_first_dear : forall L x s G, trep L (x :: s) G ->
  dear 18 (tl_drop_first L) G (fun r G' => trep (fst r) s G').
Proof.
  intros L x s G (ts & tl & -> & Ch & Lt & ->). unfold tl_drop_first, hl_drop_first. cbn [hl_head hl_len HeapList.hl_last].
  rewrite last_error_cons in Lt. inversion Ch as [|x0 s' t ts' a Et Ch']; subst.
  cbn [map hd_error pa length]. unfold read_node. rewrite map_app. cbn [map app].
  set (nd := PT a (TLN (pa t) (hd_error (map pa ts'))) (t :: ts')).
  eapply dear_read; [apply (lent_in nd); now left|lia|]. cbn [t_isN].
  apply d_clone_opt; [eapply chain_one; eauto| |lia|].
  { intros u Iu. eapply lent_kid; [apply (lent_in nd); now left|]. now right. }
  apply (dear_perm _ _ _ _ _ (Tree nd :: map Tree ts' ++ map Tree tl)); [perm|].
  assert (Fin : forall tl' n, lastt ts' (last_error s) tl' -> 10 <= n ->
    dear n (let* _ := drop_ptr tkids 4 a in
            Ret (mkHL (hd_error (map pa ts')) (hd_error (map pa tl')) (length s), true))
      (Tree nd :: map Tree ts' ++ map Tree tl')
      (fun r G' => trep (fst r) s G')).
  { intros tl' n Lt' Ln.
    dseq 10 0 (Tree nd :: map (@Tree C) ts') (map (@Tree C) tl') (fun (_ : unit) (G : list own) => G = map Tree ts').
    - rewrite drop_ptr_eq.
      eapply (dear_dec _ _ _ _ _ (TLN (pa t) (hd_error (map pa ts'))) (t :: ts') _ _ (map Tree ts'));
        [lia|apply Permutation_refl|now apply dear_ret|].
      intros _ _ _. cbn [tkids]. rewrite (chain_opt _ _ _ _ _ Ch').
      exists (cr + 8). split; [lia|].
      dseq 7 1 (map (@Tree C) (t :: ts') ++ map (@Tree C) ts') (@nil own) (fun (_ : unit) (G : list own) => G = map Tree ts').
      + rewrite drop_all_cons. cbn [map app].
        dseq 6 1 [Tree t] (map (@Tree C) ts' ++ map (@Tree C) ts') (fun (_ : unit) (G : list own) => G = []);
          [apply (d_elem_drop x); [exact Et|lia]|].
        intros [] G' ->. cbn [app]. destruct (chain_one _ _ _ _ _ Ch') as [->|(u & ->)]; [now apply dear_ret|].
        cbn [map app]. rewrite drop_all_cons.
        dseq 1 0 [Tree u; Tree u] (@nil own) (fun (_ : unit) (G : list own) => G = [Tree u]).
        * apply dear_drop_shared; trivial. apply lent_in. now left.
        * intros [] G' ->. now apply dear_ret.
      + intros [] G' ->. rewrite app_nil_r. exists 0. split; [reflexivity|]. now apply dear_ret.
    - intros [] G' ->. apply dear_ret. cbn [fst]. exists ts', tl'. rewrite map_app. splits; trivial. }
  destruct s as [|y s].
  - cbn [length Nat.eqb]. inversion Ch'; subst ts'. apply dear_assoc. cbn [map app].
    dseq 6 10 (map (@Tree C) tl) [Tree nd] (fun (_ : unit) (G : list own) => G = []);
      [eapply d_last_drop; [exact Lt|intros _; lia]|].
    intros [] G' ->. cbn [pbind]. cbn [length] in Fin. apply (Fin []); [now constructor|lia].
  - cbn [length Nat.eqb pbind]. apply (Fin tl); [|lia]. inversion Ch'; subst ts'.
    clear Fin. destruct Lt as [|z u Eu En]; [discriminate|]. constructor; [trivial|]. now inversion En; subst.
Qed.

(** Dropping a list of one element. *)
Lemma tl_drop_dear : forall L x G, trep L [x] G -> dear 16 (tl_drop L) G (fun _ G' => G' = []).
Proof.
  intros L x G (ts & tl & -> & Ch & Lt & ->). unfold tl_drop, hl_drop. cbn [hl_head hl_len HeapList.hl_last].
  inversion Ch as [|x0 s' t ts' a Et Ch']; subst. inversion Ch'; subst ts'. cbn [map hd_error pa].
  set (nd := PT a (TLN (pa t) None) [t]). rewrite map_app. cbn [map].
  dseq 10 6 [Tree nd] (map (@Tree C) tl) (fun (_ : unit) (G : list own) => G = []).
  - cbn [length hl_drop_loop]. exists 9, (TLN (pa t) None), [t], []. splits; [lia|apply Permutation_refl| |].
    + eapply dear_le; [apply (dear_drop tkids cr slim (1 + 2) nd)|].
      * destruct Et as [v e us (-> & _)]. cbn. lia.
      * destruct Et as [v e us (-> & _)]. cbn. lia.
    + intros _ _ _. cbn [t_isN map app].
      dseq 6 0 [Tree t] (@nil own) (fun (_ : unit) (G : list own) => G = []);
        [apply (d_elem_drop x); [exact Et|lia]|].
      intros [] G' ->. now apply dear_ret.
  - intros [] G' ->. cbn [app]. eapply d_last_drop; [exact Lt|intros _; lia].
Qed.

Lemma tfirst_dear : forall L x s G, trep L (x :: s) G ->
  exists e, snd e = e_hash x /\ lent (et e x) G /\
    forall A (k : option hewh -> prog C A) n F Q, 2 <= n -> dear (n - 2) (k (Some e)) (F ++ G) Q ->
      dear n (let* o := tl_first L in k o) (F ++ G) Q.
Proof.
  intros L x s G (ts & tl & -> & Ch & Lt & ->). inversion Ch as [|x' s' t ts' a Et Ch']; subst.
  destruct Et as [v e us (-> & E)].
  set (t := PT v (TLE e) [et e x]) in *. set (nd := PT a (TLN (pa t) (hd_error (map pa ts'))) (t :: ts')) in *.
  assert (Ln : lent nd (map Tree ([nd] ++ tl))) by (apply lent_in; now left).
  assert (Lt' : lent t (map Tree ([nd] ++ tl))) by (eapply lent_kid; [exact Ln|now left]).
  exists e. split; [exact E|]. split; [eapply lent_kid; [exact Lt'|now left]|].
  intros A k n F Q Hn S. unfold tl_first, hl_first. cbn [hl_head map hd_error pa nd pbind read_node read_elem].
  eapply dear_read; [eapply lent_incl; [exact Ln|apply incl_appr, incl_refl]|lia|]. cbn [t_isN pbind].
  eapply dear_read; [eapply lent_incl; [exact Lt'|apply incl_appr, incl_refl]|lia|]. cbn [t_isE pbind].
  eapply dear_le; [exact S|lia].
Qed.

(** A test on entries takes one step. *)
Definition dtests (p : hewh -> prog C bool) (m : entry -> bool) : Prop :=
  forall e x G, snd e = e_hash x -> lent (et e x) G -> dear 1 (p e) G (fun b G' => b = m x /\ G' = G).

Lemma entry_dear : forall A e x (k : K * V -> prog C A) n G Q, lent (et e x) G -> 1 <= n ->
  dear (n - 1) (k (e_key x, e_val x)) G Q -> dear n (read_entry e k) G Q.
Proof. intros A e x k n G Q L Ln S. eapply dear_read; [exact L|exact Ln|exact S]. Qed.

Lemma tmatches_dear : forall same h, dtests (tmatches same h) (fun x => (e_hash x =? h)%N && same (e_key x)).
Proof.
  intros same h e x G E L. unfold tmatches. rewrite E. destruct (e_hash x =? h)%N; cbn [andb].
  - apply (entry_dear _ e x); trivial. now apply dear_ret.
  - now apply dear_ret.
Qed.

Lemma dtests_seq : forall A p m e x (k : bool -> prog C A) n G Q, dtests p m -> snd e = e_hash x -> lent (et e x) G ->
  1 <= n -> dear (n - 1) (k (m x)) G Q -> dear n (let* b := p e in k b) G Q.
Proof.
  intros A p m e x k n G Q T E L Ln S. dseq 1 (n - 1) G (@nil own) (fun b G' => b = m x /\ G' = G).
  - exact (T e x G E L).
  - intros b G' (-> & ->). now rewrite app_nil_r.
Qed.

Lemma tlrf_loop_dear : forall p m, dtests p m -> forall s f bs L G, trep L s G -> length s < f -> Forall good bs ->
  dear (22 * length s) (tlrf_loop f p (map fst bs) L) (map Tree (ets bs) ++ G)
    (fun r G' => exists L' bs' G1, Forall good bs' /\
       match find m s with
       | None => r = (L', map fst bs', None) /\ map snd bs' = rev s ++ map snd bs /\ trep L' [] G1 /\
                 G' = map Tree (ets bs') ++ G1
       | Some x => exists e s1 s2, s = s1 ++ x :: s2 /\ nomatch m s1 /\ m x = true /\
                 r = (L', map fst bs', Some e) /\ good (e, x) /\ map snd bs' = rev s1 ++ map snd bs /\
                 trep L' s2 G1 /\ G' = Tree (et e x) :: map Tree (ets bs') ++ G1
       end).
Proof.
  intros p m Hp. induction s as [|x s IH]; intros f bs L G R Lf Gb; (destruct f as [|f]; [cbn in Lf; lia|]);
    cbn [tlrf_loop find length].
  - rewrite (hl_len_rep _ _ _ R). cbn [length Nat.eqb].
    apply dear_ret. exists L, bs, G. split; trivial. splits; trivial.
  - rewrite (hl_len_rep _ _ _ R). cbn [length Nat.eqb].
    destruct (tfirst_dear L x s G R) as (e & Ee & Le & First). apply First; [lia|].
    eapply dear_clone; [eapply lent_incl; [exact Le|apply incl_appr, incl_refl]|lia|].
    fold (et e x).
    dseq 18 (1 + 22 * length s) G (Tree (et e x) :: map (@Tree C) (ets bs)) (fun (r : hlist * bool) G' => trep (fst r) s G');
      [apply (tl_drop_first_dear L x s G R)|].
    intros [L' b] G' R'. cbn [fst] in R'.
    apply (dtests_seq _ p m e x); trivial; [apply lent_in; apply in_app_iff; right; now left|lia|].
    destruct (m x) eqn:Em.
    + exists (Tree (et e x) :: map Tree (ets bs) ++ G'). split; [perm|].
      exists L', bs, G'. split; trivial. exists e, [], s. splits; trivial. intros y [].
    + change (e :: map fst bs) with (map fst ((e, x) :: bs)).
      eapply dear_perm; [|eapply dear_post; [apply (IH f ((e, x) :: bs) L' G' R')| |]].
      * change (map Tree (ets ((e, x) :: bs))) with (Tree (et e x) :: map (@Tree C) (ets bs)). perm.
      * cbn [length] in Lf. lia.
      * constructor; trivial.
      * lia.
      * intros r G3 (L2 & bs' & G1 & Gb' & H). exists L2, bs', G1. split; trivial.
        destruct (find m s) as [y|].
        -- destruct H as (e' & s1 & s2 & -> & N1 & My & -> & Ge & Eb & R2 & ->).
           exists e', (x :: s1), s2. splits; trivial.
           ++ intros z [<-|I]; auto.
           ++ rewrite Eb. cbn [map snd rev]. now rewrite <- app_assoc.
        -- destruct H as (-> & Eb & R2 & ->). splits; trivial. rewrite Eb. cbn [map snd rev]. now rewrite <- app_assoc.
Qed.

Lemma tpush_back_dear : forall bs L s G, trep L s G -> Forall good bs ->
  dear ((3 + 2 * cr) * length bs) (tpush_back (map fst bs) L) (map Tree (ets bs) ++ G)
    (fun L' G' => trep L' (rev (map snd bs) ++ s) G').
Proof.
  induction bs as [|[e x] bs IH]; intros L s G R Gb; cbn [map fst snd tpush_back length rev].
  - now apply dear_ret.
  - change (map Tree (ets ((e, x) :: bs))) with (Tree (et e x) :: map (@Tree C) (ets bs)).
    inversion Gb as [|? ? G1 G2]; subst.
    dseq (3 + 2 * cr) ((3 + 2 * cr) * length bs) (Tree (et e x) :: G) (map (@Tree C) (ets bs)) (fun L' G' => trep L' (x :: s) G');
      [apply (tl_push_dear L s G e x R G1)|].
    intros L' G' R'. eapply dear_perm; [|eapply dear_post; [apply (IH L' (x :: s) G' R' G2)|lia|]].
    + perm.
    + intros L2 G3 R3. rewrite <- app_assoc. exact R3.
Qed.

Notation lrf := (25 + 2 * cr).
Lemma tlist_remove_first_dear : forall p m, dtests p m -> forall L s G, trep L s G ->
  dear (lrf * length s) (tlist_remove_first L p) G
    (fun r G' => exists G1, trep (fst r) (rf m s) G1 /\
       match find m s with
       | None => snd r = None /\ G' = G1
       | Some x => exists e, snd r = Some e /\ snd e = e_hash x /\ G' = Tree (et e x) :: G1
       end).
Proof.
  intros p m Hp L s G R. unfold tlist_remove_first. rewrite (hl_len_rep _ _ _ R).
  assert (S := tlrf_loop_dear p m Hp s (S (length s)) [] L G R ltac:(lia) ltac:(constructor)).
  cbn [map ets app] in S.
  eapply (dear_seq _ _ _ _ _ (22 * length s) ((3 + 2 * cr) * length s) _ _ G []); [exact S|perm| |lia].
  intros r G' (L' & bs & G1 & Gb & H). rewrite app_nil_r.
  destruct (find m s) as [x|] eqn:Ef.
  - destruct H as (e & s1 & s2 & -> & N1 & Mx & -> & Ge & Eb & R1 & ->). rewrite app_nil_r in Eb.
    rewrite rf_split by trivial.
    assert (Lb : length bs = length s1) by (rewrite <- (map_length snd bs), Eb; apply rev_length).
    rewrite app_length. cbn [length].
    eapply (dear_seq _ _ _ _ _ ((3 + 2 * cr) * length bs) 0 _ _ (map (@Tree C) (ets bs) ++ G1) [Tree (et e x)]);
      [apply (tpush_back_dear bs L' s2 G1 R1 Gb)|perm| |rewrite Lb; nia].
    intros L2 G2 R2. rewrite Eb, rev_involutive in R2.
    exists (Tree (et e x) :: G2). split; [perm|]. exists G2. cbn [fst snd]. split; trivial. exists e. auto.
  - destruct H as (-> & Eb & R1 & ->). rewrite app_nil_r in Eb.
    rewrite rf_nomatch by (now apply find_none).
    assert (Lb : length bs = length s) by (rewrite <- (map_length snd bs), Eb; apply rev_length).
    eapply (dear_seq _ _ _ _ _ ((3 + 2 * cr) * length bs) 0 _ _ (map (@Tree C) (ets bs) ++ G1) []);
      [apply (tpush_back_dear bs L' [] G1 R1 Gb)|perm| |rewrite Lb; lia].
    intros L2 G2 R2. rewrite Eb, rev_involutive, app_nil_r in R2. rewrite app_nil_r.
    apply dear_ret. exists G2. cbn [fst snd]. auto.
Qed.
End Lists.

(** A branch has a child for each value of a digit at most. *)
Lemma sorted_few : forall (l : list N) u, Sorted.StronglySorted N.lt l -> (forall i, In i l -> (i < u)%N) ->
  length l <= N.to_nat u.
Proof.
  intros l. induction l as [|x l IH] using rev_ind; intros u S A; [cbn; lia|].
  rewrite app_length. cbn [length].
  assert (X : length l <= N.to_nat x).
  { apply IH.
    - clear - S. induction l as [|y l IHl]; [constructor|]. cbn in S. inversion S as [|? ? S' F]; subst.
      constructor; [auto|]. apply Forall_app in F. tauto.
    - intros i I. clear - S I. induction l as [|y l IHl]; [destruct I|]. cbn in S. inversion S as [|? ? S' F]; subst.
      destruct I as [->|I]; [|auto]. rewrite Forall_forall in F. apply F. apply in_app_iff. right. now left. }
  specialize (A x ltac:(apply in_app_iff; right; now left)). lia.
Qed.

Section Nodes.
Variable ubits : N.
Variable dbg : bool.
Context {K V : Type} (cr W : nat).
Hypothesis HW : 2 <= W.
Notation C := (tcell K V).
Notation own := (@own C).
Notation ptree := (@ptree C).
Notation entry := (hentry K V).
Notation node := (hnode K V).
Notation thin := (fun c : C => length (tkids c) <= W).
Notation dear := (dear (@tkids K V) cr thin).
Notation trep L s G := (lrep (T := entry) TLN TLE terep L s (last_error s) G).
Notation tchain := (chain (T := entry) TLN TLE terep).
Notation dtests := (dtests cr W).
Notation sim := (@sim K V).
Notation none := (fun (_ : unit) (G : list own) => G = []).

(** What the pieces take: [make_mut] of a node; taking an entry out of a list,
    for each entry of the list; pushing an entry. *)
Definition mmc : nat := 2 * W + 7 + cr.
Definition lrc : nat := 25 + 2 * cr.

(** Branches of at most [W] children, at most [r] levels. *)
Fixpoint slim (r : nat) (n : node) : Prop :=
  match n with
  | HLeaf _ => True
  | HBranch s => length (sa_array s) <= W /\ match r with 0 => False | S r' => Forall (slim r') (sa_array s) end
  end.

Lemma slim_tall : forall r n, slim r n -> tall r n.
Proof.
  induction r as [|r IH]; intros [s|bk] H; try exact I; cbn [slim tall] in *; [now destruct H|].
  destruct H as [_ H]. eapply Forall_impl; [|exact H]. exact IH.
Qed.

Lemma trep_few : forall L s ts, trep L s (map Tree ts) -> length ts <= 2.
Proof.
  intros L s ts R. destruct (trep_inv _ _ _ R) as (us & tl & -> & Ch & Lt & _). rewrite app_length.
  destruct (chain_one _ _ _ _ _ Ch) as [->|(u & ->)]; destruct (lastt_one _ _ _ _ _ Lt) as [->|(x & ->)]; cbn; lia.
Qed.

Lemma slim_thin : forall r n c ts, slim r n -> ncont n c ts -> thin c.
Proof.
  intros r n c ts H Hc. cbv beta. rewrite (ncont_kids _ _ _ Hc), map_length.
  destruct Hc as [s s' ts E1 E2 F|e x E|L l s ts R1 R2].
  - assert (X : length (sa_array s) = length ts) by (clear -F; induction F; cbn; lia). destruct r; cbn [slim] in H; lia.
  - cbn. lia.
  - pose proof (trep_few _ _ _ R2). lia.
Qed.

(** ** Dropping *)
Lemma tdrop_empty_dear : forall s t n, sa_array s = [] -> ntree (HBranch s) t -> 3 <= n ->
  dear n (tdrop 1 (pa t)) [Tree t] none.
Proof.
  intros s t n E H L. inversion H as [n' a c ts Hc]; subst. cbn [tdrop pa].
  inversion Hc as [s1 s' ts' E1 E2 F| |]; subst. rewrite E in F. inversion F; subst.
  eapply (dear_dec _ _ _ _ _ _ [] _ _ []); [lia|apply Permutation_refl|now apply dear_ret|].
  intros _ _ _. cbn [map app tglue]. rewrite E2. cbn [map each pbind].
  exists (cr + (n - 2)). split; [lia|]. exists (cr + (n - 3)). split; [lia|]. now apply dear_ret.
Qed.

Lemma tdrop_shared_dear : forall f t G n (Q : unit -> list own -> Prop),
  lent t G -> Q tt G -> 1 <= n -> dear n (tdrop (S f) (pa t)) (Tree t :: G) Q.
Proof.
  intros f [a c ts] G n Q L q Ln. cbn [tdrop pa].
  eapply dear_dec; [exact Ln|apply Permutation_refl|now apply dear_ret|].
  intros _ Al. exfalso. eapply alone_lent; eauto.
Qed.

Lemma each_shared_dear : forall (us : list ptree) G, (forall t, In t us -> lent t G) ->
  dear (length us) (each (tdrop 1) (map pa us)) (map Tree us ++ G) (fun _ G' => G' = G).
Proof.
  induction us as [|t us IH]; intros G H; cbn [each map app length]; [now apply dear_ret|].
  dseq 1 (length us) (Tree t :: map (@Tree C) us ++ G) (@nil own) (fun (_ : unit) G' => G' = map Tree us ++ G).
  - apply tdrop_shared_dear; trivial. eapply lent_incl; [apply H; now left|]. apply incl_appr, incl_refl.
  - intros [] G' ->. rewrite app_nil_r. apply IH. intros u I. apply H. now right.
Qed.

Lemma shared_opt_dear : forall f (us : list ptree) G n, us = [] \/ (exists u, us = [u]) ->
  (forall t, In t us -> lent t G) -> 1 <= n ->
  dear n (drop_opt tkids (S f) (hd_error (map pa us))) (map Tree us ++ G) (fun _ G' => G' = G).
Proof.
  intros f us G n [->|(u & ->)] H L; cbn [map hd_error drop_opt app]; [now apply dear_ret|].
  apply dear_drop_shared; trivial. apply H. now left.
Qed.

Lemma glue_shared_dear : forall n c ts G, ncont n c ts -> length ts <= W -> (forall t, In t ts -> lent t G) ->
  dear (W + 1) (tglue (tdrop 1) c) (map Tree ts ++ G) (fun _ G' => G' = G).
Proof.
  intros n c ts G Hc Lw H. destruct Hc as [s s' ts E1 E2 F|e x E|L l s ts R1 R2]; cbn [tglue].
  - rewrite E2. eapply dear_le; [now apply each_shared_dear|lia].
  - cbn [map app]. apply (dear_drop_shared tkids cr thin 0 (et e x)); trivial; [|lia]. apply H. now left.
  - destruct (trep_inv _ _ _ R2) as (us & tl & -> & Ch & Lt & ->). unfold tl_drop, hl_drop.
    cbn [hl_head HeapList.hl_last hl_len].
    dseq 2 1 (map Tree us ++ map Tree tl ++ G) (@nil own) (fun (_ : unit) G' => G' = map Tree tl ++ G).
    + inversion Ch as [|x s' t ts' a Et Ch']; subst; cbn [map hd_error app].
      * cbn [hl_drop_loop]. now apply dear_ret.
      * cbn [length hl_drop_loop pa].
        set (nd := PT a (TLN (pa t) (hd_error (map pa ts'))) (t :: ts')) in *.
        assert (Lnd : lent nd (map Tree tl ++ G)).
        { eapply lent_incl; [apply H; apply in_app_iff; left; now left|]. apply incl_appr, incl_refl. }
        eexists 1, _, _, (map Tree tl ++ G). split; [lia|]. split; [apply Permutation_refl|]. split.
        -- change (S (length s') + 2) with (S (length s' + 2)). now apply (dear_drop_shared tkids cr thin _ nd).
        -- intros _ Al. exfalso. eapply alone_lent; eauto.
    + intros [] G' ->. rewrite app_nil_r. apply shared_opt_dear; [| |lia].
      * now apply (lastt_one _ _ _ _ _ Lt).
      * intros t I. apply H. apply in_app_iff. now right.
Qed.

Lemma tmake_mut_dear : forall n a c ts, ncont n c ts ->
  dear mmc (tmake_mut a) [Tree (PT a c ts)]
    (fun r G => exists a', r = (a', c) /\ G = Held a' :: map Tree ts).
Proof.
  intros n a c ts Hc. unfold tmake_mut, mmc. exists (2 * W + 6 + cr), c, ts, []. split; [lia|].
  split; [apply Permutation_refl|]. split.
  - apply (dear_read_fine _ _ _ _ _ c ts); [apply lent_in; now left|lia|]. intros Th.
    rewrite (ncont_kids _ _ _ Hc) in *. rewrite map_length in Th.
    apply dear_clone_all; [|lia|].
    + rewrite Forall_forall. intros t T. eapply lent_kid; [apply lent_in; now left|exact T].
    + exists (2 * W + 4 - length ts). split; [lia|]. intros a'.
      apply (dear_perm _ _ _ _ _ (Tree (PT a c ts) :: (map Tree ts ++ [Held a']))); [perm|].
      cbn [tdrop pbind]. eapply (dear_dec _ _ _ _ _ c ts _ _ (map Tree ts ++ [Held a'])); [lia|apply Permutation_refl| |].
      * exists (Held a' :: map Tree ts). split; [perm|]. eauto.
      * intros _ _ _. cbn [pbind]. exists (cr + (2 * W + 2 - length ts)). split; [lia|]. apply dear_assoc.
        dseq (W + 1) 1 (map Tree ts ++ map Tree ts ++ [@Held C a']) (@nil own)
          (fun (_ : unit) G => G = map Tree ts ++ [@Held C a']).
        { eapply glue_shared_dear; [exact Hc|exact Th|]. intros t T. apply lent_in. apply in_app_iff. left. now apply in_map. }
        intros [] G' ->. rewrite app_nil_r. cbn [pbind]. exists 0. split; [lia|].
        exists (Held a' :: map Tree ts). split; [perm|]. eauto.
  - intros _ _ _. apply dear_ret. exists a. split; [reflexivity|]. rewrite app_nil_r. reflexivity.
Qed.

(** ** Buckets *)
Lemma tfind_loop_dear : forall p m, dtests p m -> forall s us (G : list own) rem, tchain s us ->
  (forall t, In t us -> lent t G) -> length s <= rem ->
  dear (3 * length s) (tfind_loop p rem (hd_error (map pa us))) G (fun r G' => G' = G /\ found G (find m s) r).
Proof.
  intros p m Hp. induction s as [|x s IH]; intros us G rem Ch H L.
  - inversion Ch; subst. cbn [map hd_error]. destruct rem; cbn [tfind_loop]; now apply dear_ret.
  - destruct (chain_cons_lent x s us G Ch H) as (a & v & e & us' & -> & E & Ch' & Ln & Lv & Le & H').
    cbn [length] in *. destruct rem as [|rem]; [lia|]. cbn [tfind_loop].
    eapply dear_read; [exact Ln|lia|]. cbn [t_isN]. eapply dear_read; [exact Lv|lia|]. cbn [t_isE].
    apply (dtests_seq _ _ HW _ p m e x); trivial; [lia|]. cbn [find]. destruct (m x).
    + apply dear_ret. split; trivial. exists e. auto.
    + eapply dear_le; [apply IH; trivial; lia|lia].
Qed.

Definition fcost (bk : hbucket K V) : nat := match bk with BSingle _ => 1 | BCollision l => 3 * l_len l end.

Lemma fcost_cap : forall bk cap, bcap bk cap -> fcost bk <= 3 * cap.
Proof. intros [e|l] cap H; cbn [bcap fcost] in *; lia. Qed.

Lemma tb_find_dear : forall p m, dtests p m -> forall bk c ts (G : list own) o, ncont (HLeaf bk) c ts ->
  (forall t, In t ts -> lent t G) -> b_find m bk = Ok o ->
  dear (fcost bk) (tb_find p c) G (fun r G' => G' = G /\ found G o r).
Proof.
  intros p m Hp bk c ts G o Hc H E. inversion Hc as [|e x Ex|L l s ts' R1 R2]; subst; cbn [tb_find b_find fcost] in *.
  - injection E as <-. assert (Le : lent (et e x) G) by (apply H; now left).
    apply (dtests_seq _ _ HW _ p m e x); trivial. destruct (m x); apply dear_ret; (split; [reflexivity|]).
    + exists e. auto.
    + reflexivity.
  - rewrite (l_elems_ok l s R1) in E. injection E as <-.
    destruct (trep_lent _ _ _ G R2 H) as (us & Ch & Lu & -> & ->).
    assert (El : l_len l = length s) by apply R1. rewrite El. now apply tfind_loop_dear.
Qed.

Section Insert.
Variable keq : K -> K -> bool.
Notation mk e := (matches_key (V := V) keq (e_key e) (e_hash e)).

Lemma dtests_key : forall (e : entry) (a : hewh), snd a = e_hash e -> dtests (tmatches (fun k' => keq k' (e_key e)) (snd a)) (mk e).
Proof. intros e a ->. exact (tmatches_dear cr W (fun k' => keq k' (e_key e)) (e_hash e)). Qed.

Lemma tb_insert_dear : forall p e, dtests p (mk e) -> forall bk c ts bk' f a cap, ncont (HLeaf bk) c ts ->
  b_insert keq e bk = Ok (bk', f) -> snd a = e_hash e -> bcap bk cap ->
  dear (lrc * cap + 11 + 4 * cr) (tb_insert p a c) (Tree (et a e) :: map Tree ts) (leaves f (HLeaf bk')).
Proof.
  intros p e Hp bk c ts bk' f a cap Hc E Ea Hcap. unfold lrc.
  inversion Hc as [|o x Ex|L l s ts' R1 R2]; subst; cbn [tb_insert b_insert bcap] in *.
  - apply (dtests_seq _ _ HW _ p (mk e) o x); trivial; [apply lent_in; right; now left|lia|].
    destruct (mk e x).
    + injection E as <- <-. dseq 3 0 [Tree (et o x)] [Tree (et a e)] (fun (_ : unit) (G : list own) => G = []); [now apply d_entry_drop|].
      intros [] G ->. apply dear_ret. exists (TS a), [et a e]. splits; trivial. now constructor.
    + injection E as <- <-.
      eapply dear_clone; [apply lent_in; right; now left|lia|]. fold (et o x).
      dseq (3 + 2 * cr) (6 + 2 * cr) [Tree (et o x)] [Tree (et a e); Tree (et o x)] (fun L' G' => trep L' [x] G').
      { apply (tl_push_dear cr W HW hl_new [] [] o x); trivial. apply trep_new. }
      intros L1 G1 R1.
      dseq (3 + 2 * cr) 3 (Tree (et a e) :: G1) [Tree (et o x)] (fun L' G' => trep L' [e; x] G').
      { apply (tl_push_dear cr W HW L1 [x] G1 a e); trivial. }
      intros L2 G2 R2.
      dseq 3 0 [Tree (et o x)] G2 (fun (_ : unit) (G : list own) => G = []); [now apply d_entry_drop|].
      intros [] G ->. apply dear_ret. cbn [app].
      apply leaves_coll with (s := [e; x]); trivial. apply l_rep_push. apply l_rep_push. apply l_rep_new.
  - destruct (lrf_value (mk e) l s R1) as (l' & El & Rl). rewrite El in E. cbn [bind] in E. injection E as <- <-.
    assert (Els : l_len l = length s) by apply R1.
    assert (Lc : (25 + 2 * cr) * length s <= (25 + 2 * cr) * cap) by (apply Nat.mul_le_mono_l; lia).
    dseq ((25 + 2 * cr) * length s) (6 + 2 * cr) (map (@Tree C) ts) [Tree (et a e)]
      (fun r G' => exists G1, trep (fst r) (rf (mk e) s) G1 /\
       match find (mk e) s with
       | None => snd r = None /\ G' = G1
       | Some x => exists e, snd r = Some e /\ snd e = e_hash x /\ G' = Tree (et e x) :: G1
       end).
    { now apply tlist_remove_first_dear. }
    intros [L' rm] G' (G1 & RL & Hf). cbn [fst snd] in RL, Hf.
    dseq 3 (3 + 2 * cr) G' [Tree (et a e)] (fun (_ : unit) G => G = G1 /\ is_some rm = is_some (find (mk e) s)).
    { destruct (find (mk e) s) as [x|].
      - destruct Hf as (o & -> & Eo & ->).
        apply (dear_frame tkids cr thin _ 3 3 _ [Tree (et o x)] G1 none); [now apply d_entry_drop|perm| |lia].
        intros [] G2 ->. exists G1. cbn [app is_some]. auto.
      - destruct Hf as (-> & ->). apply dear_ret. auto. }
    intros [] G2 (-> & <-).
    dseq (3 + 2 * cr) 0 (Tree (et a e) :: G1) (@nil own) (fun L2 G' => trep L2 (e :: rf (mk e) s) G').
    { now apply tl_push_dear. }
    intros L2 G3 R3. rewrite app_nil_r. apply dear_ret.
    apply leaves_coll with (s := e :: rf (mk e) s); trivial. now apply l_rep_push.
Qed.

Variable b : N.
Hypothesis Hb : (0 < b)%N.
Hypothesis Hdeg : (2 ^ b <= ubits)%N.
Hypothesis Hub : (ubits <= 64)%N.
Notation degree := (2 ^ b)%N.
Notation pcp := (pcap ubits dbg degree).
Notation hins := (hn_insert ubits dbg keq).
Notation tins := (tn_insert ubits dbg keq).

Lemma ins_empty_dear : forall fuel d o a n1 f, hins (S fuel) o new_empty_branch d degree = Ok (n1, f) -> snd a = e_hash o ->
  dear (1 + cr) (tins (S fuel) (e_key o) a (TB sa_new) d degree) [Tree (et a o)] (leaves f n1).
Proof.
  intros fuel d o a n1 f H Ea. unfold new_empty_branch in H. cbn [hn_insert tn_insert] in *. rewrite Ea.
  inv H oi Ei. rewrite Ei. inv H i Eu. cbn [lift pbind]. rewrite Eu. cbn [lift pbind].
  inv H g Eg. pose proof (sim_get_mut _ _ _ _ _ _ _ sim_new Eg) as Sg.
  destruct g as [[n w]|].
  { exfalso. destruct Sg as (Hg & ts1 & t & ts2 & w' & E & _). destruct ts1; discriminate. }
  rewrite Sg. cbn [lift pbind]. inv H s2 Es. injection H as <- <-.
  destruct (sim_set_none _ _ _ _ _ _ _ _ sim_new Eg Es) as (ts1 & ts2 & E & Hset).
  destruct ts1; [|discriminate]. destruct ts2; [|discriminate]. cbn [app] in Hset.
  apply (dear_new _ _ _ _ _ [et a o] _ _ []); [lia|cbn; lia|perm|reflexivity|]. intros p.
  destruct (Hset (PT p (TS a) [et a o])) as (s2' & E2 & S2); [now repeat constructor|].
  cbn [pa] in E2. rewrite E2. cbn [lift pbind]. apply dear_ret.
  exists (TB s2'), [PT p (TS a) [et a o]]. splits; trivial. now apply sim_cont.
Qed.

Lemma ins_branch_dear : forall r d s s' ts e a fuel n' f cap nb,
  (forall c0 cc tts n0 f0, slim r c0 -> slim r n0 -> pcp r (S d) (e_hash e) c0 cap ->
     hins fuel e c0 (S d) degree = Ok (n0, f0) -> ncont c0 cc tts ->
     dear nb (tins fuel (e_key e) a cc (S d) degree) (Tree (et a e) :: map Tree tts) (leaves f0 n0)) ->
  slim (S r) (HBranch s) -> slim (S r) n' -> pcp (S r) d (e_hash e) (HBranch s) cap ->
  hins (S fuel) e (HBranch s) d degree = Ok (n', f) -> sim s s' ts -> snd a = e_hash e ->
  dear (mmc + 1 + nb) (tins (S fuel) (e_key e) a (TB s') d degree) (Tree (et a e) :: map Tree ts) (leaves f n').
Proof.
  intros r d s s' ts e a fuel n' f cap nb IH T T' P H S Ea. cbn [hn_insert tn_insert pcap] in *. rewrite Ea.
  inv H oi Ei. rewrite Ei. inv H i Eu. cbn [lift pbind]. rewrite Eu. cbn [lift pbind].
  assert (oi = Some i) by (destruct oi; cbn in Eu; congruence). subst oi.
  inv H g Eg. pose proof (sim_get_mut _ _ _ _ _ _ _ S Eg) as Sg.
  destruct g as [[n w]|].
  - destruct Sg as (Hg & ts1 & t & ts2 & w' & -> & Ht & Eg' & Hw & _ & Harr).
    rewrite Eg'. cbn [lift pbind]. inv H y Ey. destruct y as [c' f']. injection H as <- <-.
    inversion Ht as [n1 p cc tts Hc]; subst. cbn [pa].
    dseq mmc (1 + nb) [Tree (PT p cc tts)] (Tree (et a e) :: map Tree (ts1 ++ ts2))
      (fun (r : addr * C) G => exists a', r = (a', cc) /\ G = Held a' :: map Tree tts).
    { eapply tmake_mut_dear; eauto. }
    intros r0 G' (p' & -> & ->).
    assert (Tn : slim r n).
    { destruct (Harr n) as (l1 & l2 & E1 & _). destruct T as [_ T]. rewrite E1 in T. rewrite Forall_forall in T. apply T, in_elt. }
    assert (Tn' : slim r c').
    { destruct (Harr c') as (l1 & l2 & _ & E1). destruct T' as [_ T']. rewrite E1 in T'. rewrite Forall_forall in T'. apply T', in_elt. }
    specialize (IH n cc tts c' f' Tn Tn' (P _ _ Ei Hg) Ey Hc).
    dseq nb 1 (Tree (et a e) :: map Tree tts) (Held p' :: map Tree (ts1 ++ ts2)) (@leaves K V bool f' c'); [exact IH|].
    intros r1 G1 (c1 & ts' & -> & Hc' & ->). cbn [pbind].
    apply (dear_fill _ _ _ _ _ _ ts' _ _ (map Tree (ts1 ++ ts2))); [lia|eapply slim_thin; eauto|perm|eapply ncont_kids; eauto|].
    exists (map Tree (ts1 ++ PT p' c1 ts' :: ts2)). split; [perm|].
    exists (TB (w' p')), (ts1 ++ PT p' c1 ts' :: ts2). splits; trivial.
    apply sim_cont. apply (Hw c' (PT p' c1 ts')). now constructor.
  - rewrite Sg. cbn [lift pbind]. inv H s2 Es. injection H as <- <-.
    destruct (sim_set_none _ _ _ _ _ _ _ _ S Eg Es) as (ts1 & ts2 & -> & Hset).
    apply (dear_new _ _ _ _ _ [et a e] _ _ (map Tree (ts1 ++ ts2))); [unfold mmc; lia|cbn; lia|perm|reflexivity|]. intros p.
    destruct (Hset (PT p (TS a) [et a e])) as (s2' & E2 & S2); [now repeat constructor|].
    cbn [pa] in E2. rewrite E2. cbn [lift pbind].
    exists (map Tree (ts1 ++ PT p (TS a) [et a e] :: ts2)). split; [perm|].
    exists (TB s2'), (ts1 ++ PT p (TS a) [et a e] :: ts2). splits; trivial. now apply sim_cont.
Qed.

Definition ins_cost (r cap : nat) : nat := r * (mmc + 8 + cr) + 3 * cap + (lrc * cap + 11 + 4 * cr).

Lemma tn_insert_dear : forall r d n c ts e a n' f cap fuel, slim r n -> slim r n' -> d + r = D b ->
  pcp r d (e_hash e) n cap -> 1 <= cap -> hins fuel e n d degree = Ok (n', f) -> ncont n c ts -> snd a = e_hash e ->
  dear (ins_cost r cap) (tins fuel (e_key e) a c d degree) (Tree (et a e) :: map Tree ts) (leaves f n').
Proof.
  unfold ins_cost.
  induction r as [|r IH]; intros d n c ts e a n' f cap fuel T T' Hd P Hcap H Hc Ea; (destruct fuel as [|fuel]; [discriminate|]).
  - destruct n as [s|bk]; [now destruct T|]. cbn [pcap] in P.
    assert (X : exists bk', b_insert keq e bk = Ok (bk', f) /\ n' = HLeaf bk' /\ exists o, b_find (mk e) bk = Ok o).
    { cbn [hn_insert] in H. rewrite (index_ok ubits dbg b Hb Hdeg Hub) in H by lia.
      destruct (Nat.ltb_spec d (D b)); [lia|]. cbn [bind is_some negb] in H. unfold b_contains_key in H.
      inv H x Ex. inv Ex o Eo. inv H y Ey. destruct y as [bk' f']. injection H as <- <-. eauto. }
    destruct X as (bk' & Eb & -> & o & Eo).
    assert (Sins := fun p Hp => tb_insert_dear p e Hp bk c ts bk' f a cap Hc Eb Ea P).
    assert (Sf := tb_find_dear _ _ (dtests_key e a Ea) bk c ts (Tree (et a e) :: map Tree ts) o Hc
      ltac:(intros t I; apply lent_in; right; now apply in_map) Eo).
    assert (Ei : index_from_hash dbg (snd a) d degree = Ok None).
    { rewrite (index_ok ubits dbg b Hb Hdeg Hub) by lia. destruct (Nat.ltb_spec d (D b)); [lia|trivial]. }
    assert (Etr : tins (S fuel) (e_key e) a c d degree =
      (let matching := tmatches (fun k' => keq k' (e_key e)) (snd a) in
       let* found := tb_find matching c in tb_insert matching a c)).
    { inversion Hc; subst; cbn [tn_insert]; rewrite Ei; reflexivity. }
    rewrite Etr. cbv zeta. pose proof (fcost_cap _ _ P).
    dseq (fcost bk) (lrc * cap + 11 + 4 * cr) (Tree (et a e) :: map Tree ts) (@nil own)
      (fun r0 G' => G' = Tree (et a e) :: map Tree ts /\ found (Tree (et a e) :: map Tree ts) o r0); [exact Sf|].
    intros r0 G' (-> & _). rewrite app_nil_r. apply Sins. now apply dtests_key.
  - destruct n as [s|bk].
    + inversion Hc as [s0 s' ts' E1 E2 F| |]; subst.
      eapply dear_le; [eapply (ins_branch_dear r d s s' ts e a fuel n' f cap
        (r * (mmc + 8 + cr) + 3 * cap + (lrc * cap + 11 + 4 * cr)))|]; eauto; try lia.
      * intros c0 cc tts n0 f0 T0 T1 P0 H0 C0. apply (IH (S d) c0 cc tts e a n0 f0 cap fuel); trivial. lia.
      * now repeat split.
    + cbn [pcap] in P.
      assert (Ei : forall h, index_from_hash dbg h d degree = Ok (Some (idx b d h))).
      { intros h. rewrite (index_ok ubits dbg b Hb Hdeg Hub) by lia. destruct (Nat.ltb_spec d (D b)); [trivial|lia]. }
      cbn [hn_insert] in H. rewrite Ei in H. cbn [bind is_some negb] in H. unfold b_contains_key in H.
      inv H x Ex. inv Ex o Eo. injection Ex as <-.
      assert (Sf := tb_find_dear _ _ (dtests_key e a Ea) bk c ts (Tree (et a e) :: map Tree ts) o Hc
        ltac:(intros t I; apply lent_in; right; now apply in_map) Eo).
      assert (Etr : tins (S fuel) (e_key e) a c d degree =
        (let matching := tmatches (fun k' => keq k' (e_key e)) (snd a) in
         let* found := tb_find matching c in
         if is_some found then tb_insert matching a c
         else match c with
              | TS old =>
                  Clone (fst old)
                    (let* _ := drop_ptr tkids 1 (fst old) in
                     read_entry old (fun kv =>
                       let* (c1, _) := tins fuel (fst kv) old (TB sa_new) d degree in
                       let* (c2, _) := tins fuel (e_key e) a c1 d degree in
                       Ret (c2, true)))
              | _ => Fail
              end)).
      { inversion Hc; subst; cbn [tn_insert]; rewrite Ei; reflexivity. }
      rewrite Etr. cbv zeta. clear Etr. pose proof (fcost_cap _ _ P) as Fc.
      set (B := r * (mmc + 8 + cr) + 3 * cap + (lrc * cap + 11 + 4 * cr)) in *.
      set (N2 := if is_some o then lrc * cap + 11 + 4 * cr else mmc + 7 + cr + B).
      assert (F1 : is_some o = false -> fcost bk = 1 \/ exists l, bk = BCollision l) by (destruct bk; [now left|right; eauto]).
      assert (LN : fcost bk + N2 <= S r * (mmc + 8 + cr) + 3 * cap + (lrc * cap + 11 + 4 * cr) \/
                   (is_some o = false /\ exists l, bk = BCollision l)).
      { unfold N2. destruct (is_some o); [left; cbn [Nat.mul]; lia|].
        destruct (F1 eq_refl) as [->|X]; [left; unfold B; cbn [Nat.mul]; lia|right; auto]. }
      destruct LN as [LN|(Z & l & ->)].
      2: { exfalso. rewrite Z in H. discriminate. }
      dseq (fcost bk) N2 (Tree (et a e) :: map Tree ts) (@nil own)
        (fun r0 G' => G' = Tree (et a e) :: map Tree ts /\ found (Tree (et a e) :: map Tree ts) o r0); [exact Sf|].
      intros r0 G' (-> & Fo). rewrite app_nil_r.
      assert (Er : is_some r0 = is_some o).
      { destruct o; cbn [found] in Fo; [now destruct Fo as (? & -> & _)|now subst]. }
      unfold N2. rewrite Er. destruct (is_some o).
      * inv H y Ey. destruct y as [bk' f']. injection H as <- <-.
        apply (tb_insert_dear _ e (dtests_key e a Ea) bk c ts bk' f' a cap Hc Ey Ea P).
      * inversion Hc as [|old x Ex|L l s ts' R1 R2]; subst; [|discriminate].
        inv H y Ey. destruct y as [n1 f1]. inv H z Ez. destruct z as [n2 f2]. injection H as <- <-.
        destruct fuel as [|fuel]; [discriminate|].
        destruct (ins_empty ubits dbg keq b fuel d x old n1 f1 Ey Ex) as (_ & s1 & -> & Ea1).
        assert (S1 := ins_empty_dear fuel d x old (HBranch s1) f1 Ey Ex).
        eapply dear_clone; [apply lent_in; right; now left|lia|]. fold (et old x).
        dseq 3 (mmc + 3 + cr + B) [Tree (et old x)] [Tree (et a e); Tree (et old x)] (fun (_ : unit) (G : list own) => G = []); [now apply d_entry_drop|].
        intros [] G ->. cbn [app].
        apply (entry_dear _ _ _ old x); [apply lent_in; right; now left|lia|]. cbn [fst].
        dseq (1 + cr) (mmc + 1 + B) [Tree (et old x)] [Tree (et a e)] (@leaves K V bool f1 (HBranch s1)); [exact S1|].
        intros r1 G1 (c1 & ts1 & -> & Hc1 & ->).
        inversion Hc1 as [s0 s' ts' E1 E2 F| |]; subst.
        dseq (mmc + 1 + B) 0 (Tree (et a e) :: map Tree ts1) (@nil own) (@leaves K V bool f2 n2).
        { apply (ins_branch_dear r d s1 s' ts1 e a fuel n2 f2 cap B); trivial.
          - intros c0 cc tts n0 f0 T0 T1 P0 H0 C0. apply (IH (S d) c0 cc tts e a n0 f0 cap fuel); trivial. lia.
          - cbn [slim]. rewrite Ea1. split; [cbn; lia|]. constructor; [destruct r; exact I|constructor].
          - cbn [pcap]. intros i c0 _ Hg. unfold sa_get in Hg. rewrite Ea1 in Hg.
            inv Hg x1 Y1. inv Hg x2 Y2. destruct x2 as [j|]; [|discriminate]. inv Hg x3 Y3. injection Hg as ->.
            destruct j as [|[|j]]; try discriminate. injection Y3 as <-. destruct r; exact Hcap.
          - now repeat split. }
        intros r2 G2 (c2 & ts2 & -> & Hc2 & ->). rewrite app_nil_r. apply dear_ret. exists c2, ts2. auto.
Qed.
End Insert.

Section Lookup.
Context {Q : Type}.
Variable borrow : K -> Q.
Variable qeq : Q -> Q -> bool.
Variable q : Q.
Variable h : N.
Notation m := (@matches K V Q borrow qeq q h).
Notation tm := (tmatches (V := V) (fun k => qeq (borrow k) q) h).

Lemma dtests_q : dtests tm m.
Proof. exact (tmatches_dear cr W (fun k => qeq (borrow k) q) h). Qed.

Lemma tn_get_dear : forall fuel n c ts (G : list own) r d degree cap o, tall r n -> pcap ubits dbg degree r d h n cap ->
  ncont n c ts -> (forall t, In t ts -> lent t G) ->
  hn_get ubits dbg borrow qeq fuel q h n d degree = Ok o ->
  dear (r + 3 * cap) (tn_get ubits dbg borrow qeq fuel q h c d degree) G (fun r G' => G' = G /\ found G o r).
Proof.
  induction fuel as [|fuel IH]; intros n c ts G r d degree cap o T P Hc HG H; [discriminate|]. destruct n as [s|bk].
  - destruct r as [|r]; [destruct T|]. cbn [tall pcap] in T, P.
    inversion Hc as [s0 s' ts' E1 E2 F| |]; subst. cbn [hn_get tn_get] in *.
    inv H oi Ei. rewrite Ei. inv H i Eu. cbn [lift pbind]. rewrite Eu. cbn [lift pbind].
    assert (oi = Some i) by (destruct oi; cbn in Eu; congruence). subst oi.
    inv H g Eg. assert (S : sim s s' ts) by now repeat split.
    pose proof (sim_get _ _ _ _ _ _ _ S Eg) as Sg. destruct g as [n|].
    + destruct Sg as (t & It & Ht & Eg'). rewrite Eg'. cbn [lift pbind].
      inversion Ht as [n1 p cc tts Hc']; subst. cbn [pa].
      assert (Lt := HG _ It). eapply dear_read; [exact Lt|lia|].
      eapply dear_le; [apply (IH n cc tts G r (Datatypes.S d) degree cap o); trivial|lia].
      * assert (In n (sa_array s)).
        { unfold sa_get in Eg. inv Eg x1 Y1. inv Eg x2 Y2. destruct x2 as [j|]; [|discriminate].
          inv Eg x3 Y3. injection Eg as ->. destruct (nth_error (sa_array s) j) as [y|] eqn:Ej; [|discriminate].
          injection Y3 as <-. eapply nth_error_In; eauto. }
        rewrite Forall_forall in T. auto.
      * exact (P _ _ Ei Eg).
      * intros u Iu. eapply lent_kid; eauto.
    + rewrite Sg. cbn [lift pbind]. injection H as <-. now apply dear_ret.
  - cbn [hn_get] in H. assert (X := tb_find_dear _ _ dtests_q bk c ts G o Hc HG H).
    assert (Pc : bcap bk cap) by (destruct r; exact P). pose proof (fcost_cap _ _ Pc).
    eapply dear_le; [inversion Hc; subst; exact X|lia].
Qed.

(** ** Mutable lookup *)
Lemma tb_get_mut_dear : forall g bk c ts bk' f cap, ncont (HLeaf bk) c ts ->
  b_get_mut borrow qeq q h g bk = Ok (bk', f) -> bcap bk cap ->
  dear (lrc * cap + 30 + 5 * cr) (tb_get_mut tm g c) (map Tree ts) (leaves f (HLeaf bk')).
Proof.
  intros g bk c ts bk' f cap Hc E Hcap. unfold lrc.
  inversion Hc as [|o x Ex|L l s ts' R1 R2]; subst; cbn [tb_get_mut b_get_mut bcap] in *.
  - apply (dtests_seq _ _ HW _ tm m o x); trivial; [apply dtests_q|apply lent_in; now left|lia|].
    destruct (m x).
    + injection E as <- <-.
      dseq (6 + cr) 1 [Tree (et o x)] (@nil own)
        (fun (r : addr * C) (G : list own) => exists a', r = (a', TE (e_key x, e_val x)) /\ G = [Held a']).
      { eapply dear_le; [exact (dear_make_mut tkids cr thin (fst o) (TE (e_key x, e_val x)) [])|cbn; lia]. }
      intros r G (a' & -> & ->). cbn [app].
      apply (dear_fill _ _ _ _ _ _ [] _ _ []); [lia|cbn; lia|perm|trivial|].
      apply dear_ret. exists (TS (a', snd o)), [et (a', snd o) (e_write g x)]. splits; trivial. now constructor.
    + injection E as <- <-. apply dear_ret. exists (TS o), [et o x]. splits; trivial.
  - destruct (lrf_value m l s R1) as (l' & El & Rl). rewrite El in E. cbn [bind] in E.
    assert (Els : l_len l = length s) by apply R1.
    assert (Lc : (25 + 2 * cr) * length s <= (25 + 2 * cr) * cap) by (apply Nat.mul_le_mono_l; lia).
    dseq ((25 + 2 * cr) * length s) (30 + 5 * cr) (map (@Tree C) ts) (@nil own)
      (fun r G' => exists G1, trep (fst r) (rf m s) G1 /\
       match find m s with
       | None => snd r = None /\ G' = G1
       | Some x => exists e, snd r = Some e /\ snd e = e_hash x /\ G' = Tree (et e x) :: G1
       end).
    { apply tlist_remove_first_dear; trivial. apply dtests_q. }
    intros [L' rm] G' (G1 & RL & Hf). cbn [fst snd] in RL, Hf. rewrite app_nil_r.
    pose proof (rf_length m s) as Hlen.
    destruct (find m s) as [x|] eqn:Ef.
    + destruct Hf as (o & -> & Eo & ->). cbn [is_some] in Hlen.
      pose proof (l_rep_push l' _ x Rl) as Rp. unfold l_push_front_mut in E. rewrite (l_rep_first _ _ Rp) in E.
      cbn [hd_error option_map] in E. injection E as <- <-.
      dseq (3 + 2 * cr) (27 + 3 * cr) (Tree (et o x) :: G1) (@nil own) (fun L2 G' => trep L2 (x :: rf m s) G').
      { now apply tl_push_dear. }
      intros L2 G2 (us & tl & -> & Ch & Lt & ->). rewrite app_nil_r.
      inversion Ch as [|x' s' t us' a Et Ch']; subst. destruct Et as [v e ts1 (-> & Ee)].
      assert (Lus : length us' <= 1) by (destruct (chain_one _ _ _ _ _ Ch') as [->|(u & ->)]; cbn; lia).
      cbn [hl_head HeapList.hl_last hl_len map hd_error pa app].
      dseq (10 + cr) (17 + 2 * cr) [Tree (PT a (TLN v (hd_error (map pa us'))) (PT v (TLE e) [et e x] :: us'))] (map (@Tree C) tl)
        (fun (r : addr * C) (G : list own) => exists a', r = (a', @TLN K V v (hd_error (map pa us'))) /\
           G = Held a' :: map (@Tree C) (PT v (TLE e) [et e x] :: us')).
      { eapply dear_le; [exact (dear_make_mut tkids cr thin a (TLN v (hd_error (map pa us'))) (PT v (TLE e) [et e x] :: us'))|].
        cbn [length]. lia. }
      intros r G (a' & -> & ->). cbn [map].
      dseq (8 + cr) (9 + cr) [Tree (PT v (TLE e) [et e x])] (Held a' :: map (@Tree C) us' ++ map (@Tree C) tl)
        (fun (r : addr * C) (G : list own) => exists v', r = (v', @TLE K V e) /\ G = Held v' :: map (@Tree C) [et e x]).
      { eapply dear_le; [exact (dear_make_mut tkids cr thin v (TLE e) [et e x])|cbn [length]; lia]. }
      intros r G (v' & -> & ->). cbn [map].
      dseq (6 + cr) 3 [Tree (et e x)] (Held v' :: Held a' :: map (@Tree C) us' ++ map (@Tree C) tl)
        (fun (r : addr * C) (G : list own) => exists p', r = (p', TE (e_key x, e_val x)) /\ G = [Held p']).
      { eapply dear_le; [exact (dear_make_mut tkids cr thin (fst e) (TE (e_key x, e_val x)) [])|cbn [length]; lia]. }
      intros r G (p' & -> & ->). cbn [app].
      set (x' := e_write g x). set (e' := (p', snd e)).
      apply (dear_fill _ _ _ _ _ _ [] _ _ (Held v' :: Held a' :: map Tree us' ++ map Tree tl)); [lia|cbn; lia|perm|trivial|].
      apply (dear_fill _ _ _ _ _ _ [et e' x'] _ _ (Held a' :: map Tree us' ++ map Tree tl));
        [lia|cbn; lia|unfold et, e', x'; cbn; perm|trivial|].
      assert (Kn : @tkids K V (TLN v' (hd_error (map pa us'))) = map pa (PT v' (TLE e') [et e' x'] :: us')).
      { cbn [tkids map pa]. f_equal. apply (chain_opt _ _ _ _ _ Ch'). }
      apply (dear_fill _ _ _ _ _ _ (PT v' (TLE e') [et e' x'] :: us') _ _ (map Tree tl)); [lia| |cbn [map]; perm|exact Kn|].
      { rewrite Kn, map_length. cbn [length]. lia. }
      set (nd := PT a' (TLN v' (hd_error (map pa us'))) (PT v' (TLE e') [et e' x'] :: us')).
      exists (map Tree ([nd] ++ tl)). split; [perm|].
      apply leaves_coll with (s := x' :: rf m s).
      * destruct Rl as (P1 & P2 & P3). repeat split; cbn [l_head ListModel.l_last l_length length].
        -- now rewrite P1.
        -- rewrite P2, P3. destruct (rf m s) as [|y fs']; [cbn [length] in Hlen; lia|]. reflexivity.
        -- rewrite P3. lia.
      * exists [nd], tl. splits.
        -- reflexivity.
        -- apply (ch_cons TLN TLE terep x' (rf m s) (PT v' (TLE e') [et e' x']) us' a'); trivial.
           constructor. split; [trivial|exact Ee].
        -- rewrite last_error_cons in *. destruct (rf m s); [cbn [length] in Hlen; lia|].
           destruct Lt as [|z0 q0 Eq0 En]; [discriminate|]. constructor; [trivial|]. inversion Ch'; subst us'.
           inversion En; subst. now constructor.
        -- reflexivity.
    + destruct Hf as (-> & ->). injection E as <- <-. apply dear_ret.
      now apply leaves_coll with (s := rf m s).
Qed.

Variable b : N.
Notation degree := (2 ^ b)%N.
Notation pcp := (pcap ubits dbg degree).

Definition mut_cost (r cap : nat) : nat := r * (mmc + 1) + (lrc * cap + 30 + 5 * cr).

Lemma tn_get_mut_dear : forall g r d n c ts n' f cap fuel, slim r n -> slim r n' -> pcp r d h n cap ->
  hn_get_mut ubits dbg borrow qeq fuel q h g n d degree = Ok (n', f) -> ncont n c ts ->
  dear (mut_cost r cap) (tn_get_mut ubits dbg borrow qeq fuel q h g c d degree) (map Tree ts) (leaves f n').
Proof.
  unfold mut_cost. intros g.
  induction r as [|r IH]; intros d n c ts n' f cap fuel T T' P H Hc; (destruct fuel as [|fuel]; [discriminate|]);
    destruct n as [s|bk]; try (destruct T; contradiction).
  1, 3: cbn [hn_get_mut pcap] in *; inv H y Ey; destruct y as [bk' f']; injection H as <- <-;
    (eapply dear_le; [enough (X : dear (lrc * cap + 30 + 5 * cr) (tb_get_mut tm g c) (map Tree ts) (leaves f' (HLeaf bk')));
      [inversion Hc; subst; exact X|now apply tb_get_mut_dear with (bk := bk)]|lia]).
  inversion Hc as [s0 s' ts' E1 E2 F| |]; subst. cbn [hn_get_mut tn_get_mut pcap] in *.
  inv H oi Ei. rewrite Ei. inv H i Eu. cbn [lift pbind]. rewrite Eu. cbn [lift pbind].
  assert (oi = Some i) by (destruct oi; cbn in Eu; congruence). subst oi.
  inv H y Eg. assert (S : sim s s' ts) by now repeat split. pose proof (sim_get_mut _ _ _ _ _ _ _ S Eg) as Sg.
  destruct y as [[n w]|].
  - destruct Sg as (Hg & ts1 & t & ts2 & w' & -> & Ht & Eg' & Hw & _ & Harr).
    rewrite Eg'. cbn [lift pbind]. inv H y Ey. destruct y as [c' f']. injection H as <- <-.
    inversion Ht as [n1 p cc tts Hc']; subst. cbn [pa].
    dseq mmc (1 + (r * (mmc + 1) + (lrc * cap + 30 + 5 * cr))) [Tree (PT p cc tts)] (map Tree (ts1 ++ ts2))
      (fun (r : addr * C) G => exists a', r = (a', cc) /\ G = Held a' :: map Tree tts).
    { eapply tmake_mut_dear; eauto. }
    intros r0 G' (p' & -> & ->).
    assert (Tn : slim r n).
    { destruct (Harr n) as (l1 & l2 & E3 & _). destruct T as [_ T]. rewrite E3 in T. rewrite Forall_forall in T. apply T, in_elt. }
    assert (Tn' : slim r c').
    { destruct (Harr c') as (l1 & l2 & _ & E3). destruct T' as [_ T']. rewrite E3 in T'. rewrite Forall_forall in T'. apply T', in_elt. }
    dseq (r * (mmc + 1) + (lrc * cap + 30 + 5 * cr)) 1 (map Tree tts) (Held p' :: map Tree (ts1 ++ ts2)) (@leaves K V (option V) f' c').
    { apply (IH (Datatypes.S d) n cc tts c' f' cap fuel); trivial. exact (P _ _ Ei Hg). }
    intros r1 G1 (c1 & ts' & -> & Hc1 & ->). cbn [pbind].
    apply (dear_fill _ _ _ _ _ _ ts' _ _ (map Tree (ts1 ++ ts2))); [lia|eapply slim_thin; eauto|perm|eapply ncont_kids; eauto|].
    exists (map Tree (ts1 ++ PT p' c1 ts' :: ts2)). split; [perm|].
    exists (TB (w' p')), (ts1 ++ PT p' c1 ts' :: ts2). splits; trivial.
    apply sim_cont. apply (Hw c' (PT p' c1 ts')). now constructor.
  - rewrite Sg. cbn [lift pbind]. injection H as <- <-. apply dear_ret. exists (TB s'), ts. auto.
Qed.

(** ** Removal *)
Lemma tn_compress_dear : forall s s' ts n', sim s s' ts -> length (sa_array s) = sa_size s ->
  hn_compress (HBranch s) = Ok n' ->
  dear (mmc + 5) (tn_compress (TB s')) (map Tree ts) (fun c G => exists us, ncont n' c us /\ G = map Tree us).
Proof.
  intros s s' ts n' S Hl H. unfold hn_compress in H. unfold tn_compress.
  pose proof S as (E1 & E2 & F). assert (Es : sa_size s' = sa_size s) by (unfold sa_size; now rewrite E1). rewrite Es.
  assert (Stay : forall n, dear n (Ret (TB s')) (map Tree ts) (fun c G => exists us, ncont (HBranch s) c us /\ G = map Tree us)).
  { intros n. apply dear_ret. exists ts. split; trivial. now apply sim_cont. }
  destruct (sa_size s) as [|[|k]] eqn:Ez; try (injection H as <-; apply Stay).
  destruct (sa_array s) as [|n0 [|? ?]] eqn:Ea; try discriminate.
  inversion F as [|? t ? m' Ht F']; subst. inversion F'; subst.
  unfold sa_first, sa_pop in *. rewrite Ea in H. rewrite E2. cbn [map hd_error unwrap bind lift pbind] in *.
  inversion Ht as [n1 p cc tts Hc]; subst. cbn [pa].
  eapply dear_read; [apply lent_in; now left|lia|].
  destruct Hc as [s1 s1' ts1 E3 E4 F1|e x E|L l s1 ts1 R1 R2].
  - injection H as <-. apply Stay.
  - cbn [snd last_error] in H. injection H as <-. cbn [last_error removelast].
    dseq mmc 4 [Tree (PT p (TS e) [et e x])] (@nil own)
      (fun (r : addr * C) (G : list own) => exists a', r = (a', @TS K V e) /\ G = Held a' :: map Tree [et e x]).
    { apply (tmake_mut_dear (HLeaf (BSingle x))). now constructor. }
    intros r G (p' & -> & ->). cbn [app map].
    apply (dear_fill _ _ _ _ _ _ [] _ _ [Tree (et e x)]); [lia|cbn; lia|perm|trivial|].
    set (u := PT p' (@TB K V {| sa_bitmap := sa_bitmap s'; sa_array := [] |}) []).
    dseq 3 0 [Tree u] [Tree (et e x)] (fun (_ : unit) (G : list own) => G = []).
    { apply (tdrop_empty_dear (mkSA (sa_bitmap s') []) u); trivial. unfold u. repeat constructor. }
    intros [] G ->. apply dear_ret. exists [et e x]. split; trivial. now constructor.
  - injection H as <-. apply Stay.
Qed.

Lemma tb_remove_dear : forall bk c ts obk f cap, ncont (HLeaf bk) c ts ->
  b_remove borrow qeq q h bk = Ok (obk, f) -> bcap bk cap ->
  dear (lrc * cap + 22) (tb_remove tm c) (map Tree ts)
    (fun r G => match obk with
                | None => r = (None, f) /\ G = map Tree ts /\ exists e x, c = TS e /\ ts = [et e x]
                | Some bk' => exists c' ts', r = (Some c', f) /\ ncont (HLeaf bk') c' ts' /\ G = map Tree ts'
                end).
Proof.
  intros bk c ts obk f cap Hc E Hcap. unfold lrc.
  inversion Hc as [|o x Ex|L l s ts' R1 R2]; subst; cbn [tb_remove b_remove bcap] in *.
  - apply (dtests_seq _ _ HW _ tm m o x); trivial; [apply dtests_q|apply lent_in; now left|lia|].
    apply dear_ret. destruct (m x); injection E as <- <-.
    + splits; trivial. eauto.
    + exists (TS o), [et o x]. splits; trivial.
  - destruct (lrf_value m l s R1) as (l' & El & Rl). rewrite El in E. cbn [bind] in E.
    assert (Els : l_len l = length s) by apply R1.
    assert (Lc : (25 + 2 * cr) * length s <= (25 + 2 * cr) * cap) by (apply Nat.mul_le_mono_l; lia).
    dseq ((25 + 2 * cr) * length s) 22 (map (@Tree C) ts) (@nil own)
      (fun r G' => exists G1, trep (fst r) (rf m s) G1 /\
       match find m s with
       | None => snd r = None /\ G' = G1
       | Some x => exists e, snd r = Some e /\ snd e = e_hash x /\ G' = Tree (et e x) :: G1
       end).
    { apply tlist_remove_first_dear; trivial. apply dtests_q. }
    intros [L' rm] G' (G1 & RL & Hf). cbn [fst snd] in RL, Hf. rewrite app_nil_r.
    dseq 3 19 G' (@nil own) (fun (_ : unit) G => G = G1 /\ is_some rm = is_some (find m s)).
    { destruct (find m s) as [x|].
      - destruct Hf as (o & -> & Eo & ->).
        apply (dear_frame tkids cr thin _ 3 3 _ [Tree (et o x)] G1 none); [now apply d_entry_drop|perm| |lia].
        intros [] G2 ->. exists G1. cbn [app is_some]. auto.
      - destruct Hf as (-> & ->). apply dear_ret. auto. }
    intros [] G2 (-> & Er). rewrite app_nil_r. cbv beta.
    assert (Er' : @is_some hewh rm = is_some (find m s)) by exact Er. rewrite !Er'.
    assert (El' : l_len l' = length (rf m s)) by apply Rl. rewrite El' in E. rewrite (hl_len_rep _ _ _ RL).
    destruct (rf m s) as [|y [|z s2]] eqn:Erf; cbn [length] in *; [discriminate| |].
    + rewrite (l_rep_first _ _ Rl) in E. cbn [hd_error unwrap bind] in E. injection E as <- <-.
      destruct (tfirst_dear cr W HW L' y [] G1 RL) as (e & Ee & Le & First).
      apply (First _ _ 19 []); [lia|]. cbn [app]. eapply dear_clone; [exact Le|lia|]. fold (et e y).
      dseq 16 0 G1 [Tree (et e y)] (fun (_ : unit) (G : list own) => G = []); [eapply tl_drop_dear; eauto|].
      intros [] G ->. apply dear_ret. exists (TS e), [et e y]. splits; trivial. now constructor.
    + injection E as <- <-. apply dear_ret. destruct (trep_trees _ _ _ RL) as (us & ->).
      exists (TC L'), us. splits; trivial. now apply nc_coll with (s := y :: z :: s2).
Qed.

Hypothesis Hb : (0 < b)%N.
Hypothesis Hdeg : (2 ^ b <= ubits)%N.
Hypothesis Hub : (ubits <= 64)%N.
Hypothesis HWb : N.to_nat (2 ^ b) <= W.

Lemma hrep_slim : forall r d (n : node) es, hrep ubits b r d n es -> slim r n.
Proof.
  induction r as [|r IH]; intros d n es H; destruct n as [s|bk]; try exact I.
  - destruct H.
  - cbn [hrepg slim] in *. destruct H as (al & (_ & Ea & So & _) & Hc). rewrite Ea. split.
    + rewrite map_length. etransitivity; [|exact HWb]. rewrite <- (map_length fst). apply sorted_few; [exact So|].
      intros i Ii. clear - Hc Ii Hb Hdeg Hub dbg. induction Hc as [|j c ec al rest Hr Hne Hd Hb2 Hrest IHc]; [destruct Ii|].
      cbn [map fst In] in Ii. destruct Ii as [<-|Ii]; [|auto].
      destruct ec as [|e ec]; [congruence|]. rewrite <- (Hd e ltac:(now left)), (idx_eq ubits dbg b Hb Hdeg Hub).
      apply N.mod_lt. apply N.pow_nonzero. lia.
    + clear - Hc IH. induction Hc as [|i c ec al rest Hr Hne Hd Hb2 Hrest IHc]; cbn [map snd]; constructor; eauto.
Qed.

Definition rem_cost (r cap : nat) : nat := r * (2 * mmc + 9) + (lrc * cap + 25).

Lemma tn_remove_dear : forall r d n es c ts n' f cap fuel, hrep ubits b r d n es -> d + r = D b -> r < fuel ->
  (es <> [] \/ n = new_empty_branch) -> uniq m es -> pcp r d h n cap ->
  hn_remove ubits dbg borrow qeq fuel q h n d degree = Ok (n', f) -> ncont n c ts ->
  dear (rem_cost r cap) (tn_remove ubits dbg borrow qeq fuel q h c d degree) (map Tree ts) (leaves f n').
Proof.
  unfold rem_cost.
  induction r as [|r IH]; intros d n es c ts n' f cap fuel Hr Hd Lf Hne Hu P H Hc; (destruct fuel as [|fuel]; [discriminate|]);
    destruct n as [s|bk]; try (destruct Hr; fail).
  1, 3: cbn [hn_remove pcap] in *; inv H y Ey; destruct y as [obk f']; injection H as <- <-.
  1, 2: eapply dear_le with (n := lrc * cap + 25); [|lia].
  1, 2: assert (X := tb_remove_dear bk c ts obk f' cap Hc Ey P).
  1, 2: assert (Y : dear (lrc * cap + 25) (let* (oc, removed) := tb_remove tm c in
          match oc with
          | Some c' => Ret (c', removed)
          | None => let* _ := tglue (fun _ => Fail) c in Ret (TB sa_new, removed)
          end) (map Tree ts) (leaves f' match obk with Some b' => HLeaf b' | None => new_empty_branch end));
     [|inversion Hc; subst; exact Y].
  1, 2: eapply (dear_seq _ _ _ _ _ (lrc * cap + 22) 3 _ _ (map Tree ts) []); [exact X|perm| |lia];
    intros [oc rm] G HG; rewrite app_nil_r; destruct obk as [bk'|];
    [destruct HG as (c' & ts' & [= -> ->] & Hc' & ->); apply dear_ret; exists c', ts'; auto
    |destruct HG as ([= -> ->] & -> & e & x & -> & ->); cbn [tglue];
     dseq 3 0 [Tree (et e x)] (@nil own) (fun (_ : unit) (G : list own) => G = []); [now apply d_entry_drop|];
     intros [] G ->; apply dear_ret; exists (TB sa_new), []; splits; trivial; apply sim_cont, sim_new].
  inversion Hc as [s0 s' ts' E1 E2 F| |]; subst.
  pose proof Hr as Hr0. cbn [hrepg] in Hr. destruct Hr as (al & Hw & Hch).
  cbn [hn_remove tn_remove pcap] in *.
  rewrite (index_ok ubits dbg b Hb Hdeg Hub) in * by lia. destruct (Nat.ltb_spec d (D b)); [|lia].
  cbn [bind unwrap lift pbind] in *.
  assert (S : sim s s' ts) by now repeat split.
  assert (Hm : forall e, m e = true -> idx b d (e_hash e) = idx b d h).
  { intros e He. unfold matches in He. apply andb_true_iff in He as [He _]. apply N.eqb_eq in He. now rewrite He. }
  pose proof (Hu0 ubits dbg b Hb Hdeg Hub) as HU.
  pose proof (idx_lt ubits dbg b Hb Hdeg Hub d h) as Hi.
  destruct (sa_access ubits dbg HU s al (idx b d h) Hw Hi)
    as [(l1 & l2 & -> & B & A & _ & Eg & _)|(l1 & c0 & l2 & -> & B & A & _ & (w & Eg & Hset) & _)];
    rewrite Eg in H; cbn [bind] in H; pose proof (sim_get_mut _ _ _ _ _ _ _ S Eg) as Sg; cbv beta iota in Sg.
  { rewrite Sg. cbn [lift pbind]. injection H as <- <-. apply dear_ret. exists (TB s'), ts. auto. }
  destruct Sg as (Hg & ts1 & t & ts2 & w' & -> & Ht & Eg' & Hwr & Hrm & _).
  rewrite Eg'. cbn [lift pbind].
  destruct (chl_focus ubits dbg b Hb Hdeg Hub _ _ m _ _ _ _ _ Hch B A Hm) as (es1 & ec & es2 & -> & N1 & N2 & C1 & C2 & Hrc & Hnec & Hdg & Hbr).
  assert (Uc := uniq_focus _ _ _ _ Hu).
  inv H y Ey. destruct y as [c' f'].
  destruct (hn_remove_ok ubits dbg b Hb Hdeg Hub borrow qeq q h r (Datatypes.S d) c0 ec fuel Hrc ltac:(lia) ltac:(lia) (or_introl Hnec) Uc)
    as (c'' & Ey' & Hcase & _). rewrite Ey in Ey'. injection Ey' as <- Ef'. cbv zeta in Hcase.
  inversion Ht as [n1 p cc tts Hcc]; subst n1 t. cbn [pa].
  set (B0 := r * (2 * mmc + 9) + (lrc * cap + 25)) in *.
  dseq mmc (mmc + 9 + B0) [Tree (PT p cc tts)] (map Tree (ts1 ++ ts2))
      (fun (r : addr * C) G => exists a', r = (a', cc) /\ G = Held a' :: map Tree tts).
  { eapply tmake_mut_dear; eauto. }
  intros r0 G' (p' & -> & ->).
  dseq B0 (mmc + 9) (map Tree tts) (Held p' :: map Tree (ts1 ++ ts2)) (@leaves K V bool f' c').
  { apply (IH (Datatypes.S d) c0 ec cc tts c' f' cap fuel); trivial; try lia; [now left|].
    apply (P (idx b d h)); trivial. }
  intros r1 G1 (c1 & ts' & -> & Hc1 & ->).
  inv H emp Ee. rewrite (tn_is_empty_ok _ _ _ _ _ Hc1 Ee). cbn [pbind].
  assert (Th : thin c1).
  { destruct Hcase as [(_ & ->)|(_ & Hx)].
    - inversion Hc1 as [s3 s4 ts3 E3 E4 F3| |]; subst. inversion F3; subst. cbn [tkids]. rewrite E4. cbn. lia.
    - eapply slim_thin; [eapply hrep_slim; exact Hx|exact Hc1]. }
  apply (dear_fill _ _ _ _ _ _ ts' _ _ (map Tree (ts1 ++ ts2))); [lia|exact Th|perm|eapply ncont_kids; eauto|].
  set (u := PT p' c1 ts').
  assert (Hu' : ntree c' u) by now constructor.
  assert (Sw := Hwr c' u Hu'). cbn [pa u] in Sw.
  assert (Nof : forall n (x : bool), dear n (Ret (TB (w' p'), x)) (Tree u :: map Tree (ts1 ++ ts2)) (leaves x (HBranch (w c')))).
  { intros n x. exists (map Tree (ts1 ++ u :: ts2)). split; [perm|]. exists (TB (w' p')), (ts1 ++ u :: ts2). splits; trivial.
    now apply sim_cont. }
  destruct f'; [|destruct emp; injection H as <- <-; apply Nof].
  destruct emp.
  - inv H s2 Es. inv H n2 En. injection H as <- <-.
    destruct (Hrm c' p' s2 Es) as (s2' & Es' & S2). rewrite Es'. cbn [lift pbind].
    assert (Ec' : c' = new_empty_branch).
    { destruct Hcase as [(_ & ->)|(Hx & Hy)]; [trivial|].
      rewrite (hn_is_empty_ok ubits dbg b Hb Hdeg Hub r (Datatypes.S d) c' _ Hx Hy) in Ee. discriminate. }
    dseq 3 (mmc + 5) [Tree u] (map Tree (ts1 ++ ts2)) (fun (_ : unit) (G : list own) => G = []).
    { apply (tdrop_empty_dear sa_new u); trivial. now rewrite Ec' in Hu'. }
    intros [] G ->. cbn [app].
    assert (Hl : length (sa_array s2) = sa_size s2).
    { destruct (sa_access ubits dbg HU _ _ (idx b d h) (Hset c') Hi)
        as [(k1 & k2 & E3 & _ & _ & _ & _ & Er & _)|(k1 & c2 & k2 & E3 & _ & _ & _ & _ & (s3 & Er & W3) & _)];
        rewrite Er in Es; injection Es as <-.
      - eapply (wf_size ubits dbg b Hb Hdeg Hub). apply Hset.
      - eapply (wf_size ubits dbg b Hb Hdeg Hub). exact W3. }
    dseq (mmc + 5) 0 (map Tree (ts1 ++ ts2)) (@nil own) (fun c G => exists us, ncont n2 c us /\ G = map Tree us).
    { now apply tn_compress_dear with (s := s2). }
    intros c2 G (us & Hc2 & ->). rewrite app_nil_r. apply dear_ret. exists c2, us. auto.
  - inv H n2 En. injection H as <- <-.
    dseq (mmc + 5) 0 (map Tree (ts1 ++ u :: ts2)) (@nil own) (fun c G => exists us, ncont n2 c us /\ G = map Tree us).
    { apply tn_compress_dear with (s := w c'); trivial. eapply (wf_size ubits dbg b Hb Hdeg Hub). apply Hset. }
    intros c2 G (us & Hc2 & ->). rewrite app_nil_r. apply dear_ret. exists c2, us. auto.
Qed.
End Lookup.
End Nodes.
