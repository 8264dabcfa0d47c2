(** * The iterator of HashTrieMap on the shared heap: what it delivers and reads *)
From Coq Require Import List NArith Arith Lia Bool Permutation.
From Verif Require Import Base Spec SpecMap Sim ListModel ListProofs SparseModel SparseProofs HashModel HashProofs
  PermSolve HeapModel HeapProofs HeapSafe HeapDrive HeapLooks HeapClient HeapList HeapListProofs HeapVec HeapVecProofs HeapHash
  HeapHashProofs HeapHashNodes.
Import ListNotations.
Local Open Scope prog_scope.

Lemma skipn_cons : forall {A} i (l : list A) c cs, skipn i l = c :: cs ->
  nth_error l i = Some c /\ skipn (S i) l = cs.
Proof.
  intros A. induction i as [|i IH]; intros [|y l] c cs E; cbn [skipn nth_error] in *; try discriminate.
  - injection E as -> ->. auto.
  - destruct (IH l c cs E) as [H1 H2]. split; trivial.
Qed.

Section I.
Context {K V : Type} (st : bool) (ubits b : N).
Notation C := (tcell K V).
Notation P := (prog C).
Notation own := (@own C).
Notation ptree := (@ptree C).
Notation entry := (hentry K V).
Notation node := (hnode K V).
Notation rep := (hrepg ubits b (st := st)).
Notation tlentc := (lentc (T := entry) TLN TLE terep).
Context (G : list own).

(** A pointer to an entry; to a subtree of at most [r] levels with entries [es]. *)
Definition ent_at (a : addr) (x : entry) : Prop := exists e, a = fst e /\ lent (et e x) G.
Definition sub_at (r : nat) (a : addr) (es : list entry) : Prop :=
  exists n t d, a = pa t /\ ntree n t /\ lent t G /\ rep r d n es /\ es <> [].

(** A stack element with entries [es] still to deliver. *)
Definition el_at (r : nat) (el : hitstk) (es : list entry) : Prop :=
  match el with
  | HISBranch a i n => exists s us r' css, r = S r' /\ lent (PT a (TB s) us) G /\ n = length (sa_array s) /\
      Forall2 (sub_at r') (skipn i (sa_array s)) css /\ es = concat css
  | HISColl it => exists ts, tlentc es ts G /\ it = (hd_error (map pa ts), length es)
  | HISSingle (Some e) => exists x, es = [x] /\ ent_at e x
  | HISSingle None => es = []
  end.

(** The stack: levels grow from the top to the bottom, the root has [top]. *)
Context (top : nat).
Inductive st_at : nat -> list hitstk -> list entry -> Prop :=
| st_nil : forall r, r <= S top -> st_at r [] []
| st_cons : forall r r' el stk es es', el_at r' el es -> r <= r' -> r' <= top -> st_at (S r') stk es' ->
    st_at r (el :: stk) (es ++ es').

Lemma st_at_le : forall r r' stk es, st_at r stk es -> r' <= r -> st_at r' stk es.
Proof. intros r r' stk es H L. destruct H; econstructor; eauto; lia. Qed.
Lemma st_at_short : forall r stk es, st_at r stk es -> length stk + r <= S top.
Proof. intros r stk es H. induction H; cbn [length]; lia. Qed.

Lemma new_looks : forall r d n t es, ntree n t -> lent t G -> rep r d n es ->
  looks 1 (his_new (pa t)) G (fun el => el_at r el es).
Proof.
  intros r d n t es H Lt T. inversion H as [n' a c ts Hc]; subst. cbn [pa].
  assert (Lk : forall u, In u ts -> lent u G) by (intros u I; eapply lent_kid; [exact Lt|exact I]).
  eapply looks_read; [exact Lt|].
  inversion Hc as [s s' ts' E1 E2 F|e x E|L' l s ts' R1 R2]; subst; cbn [looks el_at].
  - destruct r as [|r]; [destruct T|]. cbn [hrepg] in T. destruct T as (al & (_ & Ea & _) & Hch).
    rewrite Ea in F. clear Ea Hc H E1.
    assert (X : exists css, Forall2 (sub_at r) (sa_array s') css /\ es = concat css).
    { rewrite E2. clear Lt E2 s s' a. revert ts F Lk. induction Hch as [|i c ec al rest Hr Hne Hd Hb2 Hrest IH]; intros ts F Lk.
      - inversion F; subst. exists []. split; [constructor|reflexivity].
      - cbn [map snd] in F. inversion F as [|? t ? ts' Hn F']; subst.
        destruct (IH ts' F') as (css & Fc & ->); [intros u I; apply Lk; now right|].
        exists (ec :: css). split; [|reflexivity]. cbn [map]. constructor; [|exact Fc].
        exists c, t, (S d). splits; trivial. apply Lk. now left. }
    destruct X as (css & Fc & ->). exists s', ts, r, css. splits; trivial.
  - exists x. split; [destruct r; exact T|]. exists e. split; [reflexivity|]. apply Lk. now left.
  - assert (T' : r = 0 /\ l_rep l es /\ 2 <= length es) by (destruct r; exact T). destruct T' as (-> & Rl & L2).
    assert (s = es) as -> by (destruct R1 as (<- & _ & _), Rl as (<- & _ & _); reflexivity).
    destruct (trep_lent _ _ _ G R2 Lk) as (us & Ch & Lu & Eh & El).
    exists us. split; [split; trivial|]. unfold hl_iter_new. now rewrite Eh, El.
Qed.

(** Nothing left in an element: it says so without reading. *)
Lemma done_looks : forall r el, el_at r el [] -> looks 0 (his_next el) G (fun x => fst x = None).
Proof.
  intros r [a i n|it|[e|]] H; cbn [el_at his_next] in *.
  - destruct H as (s & us & r' & css & -> & La & -> & F & E).
    destruct (Nat.ltb_spec i (length (sa_array s))) as [L|L]; [|reflexivity]. exfalso.
    rewrite <- (Nat.sub_0_r i) in L. assert (Ln := skipn_length i (sa_array s)).
    inversion F as [X|c ec cs css' Hc F' X]; subst.
    + rewrite <- X in Ln. cbn [length] in Ln. lia.
    + destruct Hc as (? & ? & ? & _ & _ & _ & _ & N). cbn [concat] in E. destruct ec; [congruence|discriminate].
  - destruct H as (ts & Lc & ->). change 0 with (Nat.min 1 (length (@nil entry)) + 0) at 1.
    eapply looks_bind; [apply (next_ptr_looks _ _ _ terep t_isN_N [] ts G Lc)|]. intros r' ->. reflexivity.
  - destruct H as (x & E & _). discriminate.
  - reflexivity.
Qed.

(** Down from an element that has something left. *)
Lemma down_looks : forall r n el stk x es es' size, el_at r el (x :: es) -> r <= top -> st_at (S r) stk es' -> r < n ->
  looks (3 * r + 2) (hhi_loop n (el :: stk, S size)) G
    (fun y => (exists a, fst y = Some a /\ ent_at a x) /\ snd (snd y) = size /\ st_at 0 (fst (snd y)) (es ++ es')).
Proof.
  induction r as [r IH] using lt_wf_ind. intros [|n] el stk x es es' size He Hr Hs Hn; [lia|]. cbn [hhi_loop].
  destruct el as [a i m|it|[e|]]; cbn [el_at his_next] in *.
  - destruct He as (s & us & r' & css & -> & La & -> & F & E).
    inversion F as [X|c ec cs css' Hc F' X]; subst; [discriminate|]. symmetry in X.
    destruct (skipn_cons _ _ _ _ X) as [Ni Xs].
    assert (Li : i < length (sa_array s)) by (apply nth_error_Some; now rewrite Ni).
    destruct (Nat.ltb_spec i (length (sa_array s))) as [_|]; [|lia].
    destruct Hc as (nd & t & d & -> & Ht & Lt & Hrep & Hne). cbn [concat] in E.
    destruct ec as [|x0 ec]; [congruence|]. cbn [app] in E. injection E as <- ->.
    assert (Hb : el_at (S r') (HISBranch a (S i) (length (sa_array s))) (concat css')).
    { exists s, us, r', css'. rewrite Xs. splits; trivial. }
    assert (N := new_looks r' d nd t (x :: ec) Ht Lt Hrep).
    inversion Ht as [nd' a' c ts Hc]; subst. cbn [pa] in *.
    assert (Lk : forall u, In u ts -> lent u G) by (intros u I; eapply lent_kid; [exact Lt|exact I]).
    assert (Go : looks (3 * r' + 3) (let* x0 := (let* new := his_new a' in Ret (Some (inr new), HISBranch a (S i) (length (sa_array s)))) in
        let '(r, el') := x0 : option (addr + hitstk) * hitstk in
        match r with
        | Some (inl e) => let* size' := lift (csub (S size) 1) in Ret (Some e, (el' :: stk, size'))
        | Some (inr new) => hhi_loop n (new :: el' :: stk, S size)
        | None => hhi_loop n (stk, S size)
        end) G
        (fun y => (exists a, fst y = Some a /\ ent_at a x) /\ snd (snd y) = size /\ st_at 0 (fst (snd y)) ((ec ++ concat css') ++ es'))).
    { replace (3 * r' + 3) with (1 + 0 + (3 * r' + 2)) by lia.
      eapply looks_bind with (Q := fun y => exists new, y = (Some (inr new), HISBranch a (S i) (length (sa_array s))) /\ el_at r' new (x :: ec)).
      - eapply looks_bind; [exact N|]. intros new Hnew. exists new. auto.
      - intros y (new & -> & Hnew). rewrite <- app_assoc. apply IH; trivial; try lia.
        eapply st_cons; [exact Hb|lia|lia|exact Hs]. }
    replace (3 * S r' + 2) with (S (S (3 * r' + 3))) by lia.
    cbn [pbind]. eapply looks_read; [exact La|]. cbn beta iota. rewrite Ni. cbn [pbind]. eapply looks_read; [exact Lt|].
    inversion Hc as [s0 s' ts' E1 E2 F0|e x0 E|L' l s0 ts' R1 R2]; subst; [exact Go| |exact Go].
    cbn [pbind lift]. unfold csub. cbn [Nat.leb bind lift pbind].
    assert (Ex : x :: ec = [x0]) by (destruct r'; exact Hrep). injection Ex as <- ->.
    cbn [looks fst snd app]. splits; [|lia|].
    + exists (fst e). split; [reflexivity|]. exists e. split; [reflexivity|]. apply Lk. now left.
    + eapply st_cons; [exact Hb|lia|lia|exact Hs].
  - destruct He as (ts & Lc & ->). eapply looks_le with (n := 1 + 1 + 0); [|lia].
    eapply looks_bind with (Q := fun y => exists a it', y = (Some (inl a), HISColl it') /\ ent_at a x /\ el_at r (HISColl it') es).
    + change (1 + 1) with (Nat.min 1 (length (x :: es)) + 1).
      eapply looks_bind; [apply (next_ptr_looks _ _ _ terep t_isN_N (x :: es) ts G Lc)|].
      intros y (t & ts' & -> & Et & Lt & Lc'). destruct Et as [v e us (-> & Eh)]. cbn [pa].
      eapply looks_read; [exact Lt|]. cbn [t_isE looks]. exists (fst e), (hd_error (map pa ts'), length es). splits; trivial.
      * exists e. split; [reflexivity|]. eapply lent_kid; [exact Lt|now left].
      * exists ts'. split; trivial.
    + intros y (a & it' & -> & Ha & Hit). unfold csub. cbn [pbind lift Nat.leb bind looks fst snd]. splits; [eauto|lia|].
      eapply st_cons; [exact Hit|lia|lia|exact Hs].
  - destruct He as (x0 & Ex & Ha). injection Ex as <- ->. unfold csub. cbn [pbind lift Nat.leb bind looks fst snd].
    splits; [eauto|lia|]. change ([] ++ es') with (@nil entry ++ es'). eapply (st_cons 0 r (HISSingle None)); [reflexivity|lia|lia|exact Hs].
  - discriminate.
Qed.

(** One call of [next] on a stack that has something left, and on one that has not. *)
Lemma loop_looks : forall stk r n x es size, st_at r stk (x :: es) -> length stk + top < n ->
  looks (3 * top + 2) (hhi_loop n (stk, S size)) G
    (fun y => (exists a, fst y = Some a /\ ent_at a x) /\ snd (snd y) = size /\ st_at 0 (fst (snd y)) es).
Proof.
  induction stk as [|el stk IH]; intros r n x es size H Hn; inversion H as [|? r' ? ? es1 es2 He L1 L2 Hs]; subst.
  match goal with E : es1 ++ es2 = _ |- _ => rename E into Ee end. destruct es1 as [|x1 es1].
  - cbn [app] in Ee. subst es2. destruct n as [|n]; [lia|]. cbn [hhi_loop]. change (3 * top + 2) with (0 + (3 * top + 2)).
    eapply looks_bind; [apply (done_looks _ _ He)|]. intros [o el'] Eo. cbn [fst] in Eo. subst o.
    eapply IH; [exact Hs|]. cbn [length] in Hn. lia.
  - cbn [app] in Ee. injection Ee as -> <-. eapply looks_le; [eapply down_looks; eauto; cbn [length] in Hn; lia|lia].
Qed.
Lemma loop_done : forall stk r n size, st_at r stk [] -> length stk < n ->
  looks 0 (hhi_loop n (stk, size)) G (fun y => y = (None, ([], size))).
Proof.
  induction stk as [|el stk IH]; intros r n size H Hn; (destruct n as [|n]; [lia|]); cbn [hhi_loop]; [reflexivity|].
  inversion H as [|? r' ? ? es1 es2 He L1 L2 Hs]; subst.
  match goal with E : es1 ++ es2 = _ |- _ => rename E into Ee end. destruct es1; [|discriminate]. cbn [app] in Ee. subst es2.
  change 0 with (0 + 0). eapply looks_bind; [apply (done_looks _ _ He)|]. intros [o el'] Eo. cbn [fst] in Eo. subst o.
  eapply IH; [exact Hs|]. cbn [length] in Hn. lia.
Qed.

(** The iterator with the entries [l] still to come. *)
Definition kv_of (x : entry) : K * V := (e_key x, e_val x).
Definition hirel (it : hhiter) (l : list (K * V)) : Prop :=
  exists es, l = map kv_of es /\ st_at 0 (fst it) es /\ snd it = length es.

Lemma hhi_next_looks : forall fuel it l, top < fuel -> hirel it l ->
  looks (match l with [] => 0 | _ => 3 * top + 3 end) (hhi_next fuel it) G
    (fun y => fst y = hd_error l /\ hirel (snd y) (tl l)).
Proof.
  intros fuel [stk size] l Hf (es & -> & H & E). cbn [fst snd] in *. subst size. unfold hhi_next, hhi_next_ptr.
  assert (Sh := st_at_short _ _ _ H).
  destruct es as [|x es]; cbn [map hd_error tl length].
  - change 0 with (0 + 0). eapply looks_bind; [apply (loop_done stk 0); [exact H|lia]|]. intros y ->. cbn [looks fst snd].
    split; [reflexivity|]. exists []. splits; trivial. constructor. lia.
  - replace (3 * top + 3) with (3 * top + 2 + 1) by lia.
    eapply looks_bind; [apply (loop_looks stk 0); [exact H|lia]|].
    intros [o [stk' size']] ((a & Eo & e & -> & Le) & Es & Hs). cbn [fst snd] in *. subst o size'.
    eapply looks_read; [exact Le|]. cbn [looks fst snd]. split; [reflexivity|]. exists es. auto.
Qed.

Lemma hhi_new_looks : forall m n t es, pa t = hh_root m -> ntree n t -> lent t G -> rep top 0 n es -> hh_size m = length es ->
  looks 1 (hhi_new m) G (fun it => hirel it (map kv_of es)).
Proof.
  intros m n t es Ep Ht Lt Hr Hz. unfold hhi_new. rewrite Hz.
  destruct es as [|x es].
  - cbn. exists []. splits; trivial. constructor. lia.
  - cbn [length Nat.ltb Nat.leb]. rewrite <- Ep. change 1 with (1 + 0).
    eapply looks_bind; [apply (new_looks top 0 n t _ Ht Lt Hr)|]. intros el He. exists (x :: es). splits; trivial.
    cbn [fst]. rewrite <- (app_nil_r (x :: es)). eapply st_cons; [exact He|lia|lia|constructor; lia].
Qed.

(** As a value-level iterator, the list of what is to come. *)
Definition pop {A} (l : list A) : res (option A * list A) := Ok (hd_error l, tl l).
Definition lhint {A} (l : list A) : res nat := Ok (length l).
Lemma runs_pop : forall A k (l : list A), runs pop lhint k l = Ok (fwd_spec k l).
Proof. intros A. induction k as [|k IH]; intros l; [reflexivity|]. cbn [runs fwd_spec]. unfold lhint, pop. cbn [bind]. now rewrite IH. Qed.
Lemma collect_pop : forall A (l : list A) k, length l < k -> collect pop k l = Ok l.
Proof.
  intros A. induction l as [|x l IH]; intros [|k] L; cbn [length] in L; try lia; cbn [collect]; unfold pop; cbn [bind hd_error tl]; [reflexivity|].
  rewrite IH by lia. reflexivity.
Qed.
Lemma hhi_follows : forall fuel it l, top < fuel -> hirel it l ->
  follows hirel G (fun l => (3 * top + 3) * length l) (3 * top + 3) (hhi_next fuel it) (pop l) l.
Proof.
  intros fuel it l Hf H o l' E. injection E as <- <-.
  exists (match l with [] => 0 | _ => 3 * top + 3 end). splits.
  - now apply hhi_next_looks.
  - destruct l; cbn [tl length]; lia.
  - destruct l; lia.
Qed.

Lemma hh_iter_looks : forall fuel k m n t es, top < fuel -> pa t = hh_root m -> ntree n t -> lent t G -> rep top 0 n es ->
  hh_size m = length es ->
  looks ((3 * top + 3) * Nat.min (length es) k + 1) (hh_iter fuel k m) G (fun r => r = fwd_spec k (map kv_of es)).
Proof.
  intros fuel k m n t es Hf Ep Ht Lt Hr Hz. unfold hh_iter.
  replace ((3 * top + 3) * Nat.min (length es) k + 1) with
    (1 + Nat.min ((3 * top + 3) * length (map kv_of es)) (k * (3 * top + 3)))
    by (rewrite map_length, (Nat.mul_comm k), Nat.mul_min_distr_l; lia).
  eapply looks_bind; [apply (hhi_new_looks m n t es Ep Ht Lt Hr Hz)|]. intros it Hit.
  eapply (pruns_looks hirel G (fun l => (3 * top + 3) * length l)); [| |exact Hit|apply runs_pop].
  - intros it' l (es' & -> & _ & E). unfold hhi_hint, lhint. now rewrite E, map_length.
  - intros it' l Hl. now apply hhi_follows.
Qed.
Lemma hh_entries_looks : forall fuel m n t es, top < fuel -> pa t = hh_root m -> ntree n t -> lent t G -> rep top 0 n es ->
  hh_size m = length es ->
  looks ((3 * top + 3) * length es + 1) (hh_entries fuel m) G (fun r => r = map kv_of es).
Proof.
  intros fuel m n t es Hf Ep Ht Lt Hr Hz. unfold hh_entries. rewrite Nat.add_comm.
  eapply looks_bind; [apply (hhi_new_looks m n t es Ep Ht Lt Hr Hz)|]. intros it Hit.
  eapply looks_le.
  - eapply (pcollect_looks hirel G (fun l => (3 * top + 3) * length l)); [|exact Hit|apply collect_pop].
    + intros it' l Hl. now apply hhi_follows.
    + rewrite map_length. lia.
  - rewrite map_length. apply Nat.le_min_l.
Qed.
End I.

(** ** It does nothing but read *)
Section Quiet.
Context {K V : Type}.
Notation P := (prog (tcell K V)).

Lemma quiet_his_new : forall a, quiet (@his_new K V a).
Proof. intros a c. destruct c; exact I. Qed.
Lemma quiet_his_next : forall el, quiet (@his_next K V el).
Proof.
  intros [a i n|[[a|] n]|[e|]]; cbn [his_next]; try exact I.
  - destruct (i <? n); [|exact I]. intros [s|e|l|v nx|e|e]; try exact I. destruct (nth_error (sa_array s) i); [|exact I].
    intros [s'|e|l|v nx|e|e]; try exact I; (apply quiet_bind; [apply quiet_his_new|]; intros x; exact I).
  - apply quiet_bind.
    + unfold hl_next_ptr, read_node. cbn [fst snd]. hush.
    + unfold read_elem. hush.
Qed.
Lemma quiet_hhi_loop : forall n it, quiet (@hhi_loop K V n it).
Proof.
  induction n as [|n IH]; intros [[|el stk] size]; cbn [hhi_loop]; try exact I.
  apply quiet_bind; [apply quiet_his_next|]. intros [[[e|new]|] el']; try apply IH. hush.
Qed.
Lemma quiet_hhi_new : forall m, quiet (@hhi_new K V m).
Proof. intros m. unfold hhi_new. destruct (0 <? hh_size m); [|exact I]. apply quiet_bind; [apply quiet_his_new|]. intros el. exact I. Qed.
Lemma quiet_hhi_next : forall fuel it, quiet (@hhi_next K V fuel it).
Proof.
  intros fuel it. unfold hhi_next. apply quiet_bind; [apply quiet_hhi_loop|]. intros [[e|] it']; [|exact I]. intros c. destruct c; exact I.
Qed.
Lemma quiet_hh_iter : forall fuel k m, quiet (@hh_iter K V fuel k m).
Proof. intros fuel k m. apply quiet_bind; [apply quiet_hhi_new|]. intros it. apply quiet_runs, quiet_hhi_next. Qed.
Lemma quiet_hh_entries : forall fuel m, quiet (@hh_entries K V fuel m).
Proof. intros fuel m. apply quiet_bind; [apply quiet_hhi_new|]. intros it. apply quiet_collect, quiet_hhi_next. Qed.
End Quiet.
