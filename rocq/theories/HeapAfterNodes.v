(** * A damaged hash trie on the heap: the heap programs end as the functions do

    Each lemma has the form: the heap program, run on cells that stand for the node and given [n] user
    calls, never fails, stays within its allocation budget, and ends as the function of CrashModel.v
    (or CrashAfterModel.v) given [n] calls does: both complete with as many calls left and equal
    results, or both unwind; and the cells left stand for the node the function leaves. *)
From Coq Require Import List NArith Arith Lia Bool Permutation.
From Verif Require Import Base Spec SpecMap Sim ListModel ListProofs SparseModel SparseProofs HashModel HashProofs HashIter
  CrashModel CrashAfterModel CrashAfter
  PermSolve HeapModel HeapProofs HeapSafe HeapClient HeapList HeapListProofs HeapVec HeapVecProofs HeapHash HeapHashProofs
  HeapHashNodes HeapCrashHash HeapCrashHashProofs HeapAfterList.
Import ListNotations.
Local Open Scope prog_scope.

Lemma cbind_inv : forall S A S' B (x : res (crash S A)) (k : S -> S') (f : nat -> A -> res (crash S' B)) o,
  cbind x k f = Ok o -> (exists s, x = Ok (Unwound s) /\ o = Unwound (k s)) \/ (exists n a, x = Ok (Done n a) /\ f n a = Ok o).
Proof.
  intros S A S' B x k f o H. unfold cbind in H. destruct x as [[n a|s]| |]; cbn [bind] in H; try discriminate; eauto.
  injection H as <-. eauto.
Qed.

Section Lists.
Context {K V : Type}.
Notation C := (tcell K V).
Notation own := (@own C).
Notation ptree := (@ptree C).
Notation safe := (safe (@tkids K V)).
Notation entry := (hentry K V).
Notation node := (hnode K V).
Notation tchain := (chain (T := entry) TLN TLE terep).
Notation telem := (elemt (T := entry) TLE terep).

(** The outcome of testing an entry: [ask] of CrashModel.v. *)
Definition vtest (pre m : entry -> bool) (n : nat) (x : entry) : option (nat * bool) :=
  if pre x then match n with O => None | S n' => Some (n', m x) end else Some (n, false).

Lemma ask_vtest : forall pre m S A n (s : S) x (f : nat -> bool -> res (crash S A)),
  ask pre m n s x f = match vtest pre m n x with None => Ok (Unwound s) | Some (n', y) => f n' y end.
Proof. intros pre m S A n s x f. unfold ask, vtest, ucall. destruct (pre x); [destruct n|]; reflexivity. Qed.

Definition ytests (p : nat -> hewh -> prog C (option (nat * bool))) (pre m : entry -> bool) : Prop :=
  forall n e x G, snd e = e_hash x -> lent (et e x) G -> safe 0 (p n e) G (fun r G' => G' = G /\ r = vtest pre m n x).

Lemma ytests_ok : forall same h,
  ytests (xmatches same h) (same_hash h) (fun x => (e_hash x =? h)%N && same (e_key x)).
Proof.
  intros same h n e x G E L. unfold xmatches, vtest, same_hash. rewrite E. destruct (e_hash x =? h)%N; cbn [andb].
  - apply (entry_lent _ e x); trivial. apply safe_ret. auto.
  - apply safe_ret. auto.
Qed.

Lemma ytests_seq : forall A p pre m n e x (k : option (nat * bool) -> prog C A) n1 G Q, ytests p pre m -> snd e = e_hash x ->
  lent (et e x) G -> safe n1 (k (vtest pre m n x)) G Q -> safe n1 (let* r := p n e in k r) G Q.
Proof.
  intros A p pre m n e x k n1 G Q T E L S.
  seqq 0 n1 G (@nil own) (fun r G' => G' = G /\ r = vtest pre m n x).
  - exact (T n e x G E L).
  - intros r G' (-> & ->). now rewrite app_nil_r.
Qed.

Section Tests.
Variable p : nat -> hewh -> prog C (option (nat * bool)).
Variables pre m : entry -> bool.
Hypothesis Hp : ytests p pre m.

Lemma ylrf_loop : forall s f n bs L G l o, drl L s G -> l_lax l s -> length s < f -> Forall good bs ->
  c_lrf_loop pre m f n (map snd bs) l = Ok o ->
  safe 0 (xlrf_loop f p n (map fst bs) L) (map Tree (ets bs) ++ G)
    (fun r G' => match o, r with
       | Done k (l', bf, rm), Done k' (L', bf', rm') => k' = k /\ exists s' bs' G1, Forall good bs' /\
           bf' = map fst bs' /\ bf = map snd bs' /\ length bs' <= length bs + length s /\ drl L' s' G1 /\ l_lax l' s' /\
           match rm, rm' with
           | None, None => G' = map Tree (ets bs') ++ G1
           | Some x, Some e => good (e, x) /\ G' = Tree (et e x) :: map Tree (ets bs') ++ G1
           | _, _ => False
           end
       | Unwound l', Unwound L' => exists s', drl L' s' G' /\ l_lax l' s'
       | _, _ => False
       end).
Proof using Hp.
  induction s as [|x s IH]; intros f n bs L G l o R Hl Lf Gb E; (destruct f as [|f]; [cbn in Lf; lia|]);
    cbn [xlrf_loop c_lrf_loop] in *; rewrite (drl_len _ _ _ R); rewrite (lax_is_empty l _ Hl) in E; cbn [length Nat.eqb is_nil] in *.
  - injection E as <-. apply safe_ret. split; [reflexivity|]. exists [], bs, G. splits; trivial. lia.
  - rewrite (lax_first l _ Hl) in E. cbn [hd_error unwrap bind] in E.
    destruct (lax_drop l _ _ Hl) as (l' & El & Hl'). rewrite El in E. cbn [bind] in E. rewrite ask_vtest in E.
    destruct (drl_first L x s G R) as (e & Ee & Le & First). apply First.
    eexists _, _. split; [eapply lent_incl; [exact Le|apply incl_appr, incl_refl]|]. fold (et e x).
    seq 0 0 G (Tree (et e x) :: map Tree (ets bs)) ltac:(apply (drl_drop_first L x s G R)).
    intros [L' y] G' R'. cbn [fst] in R'.
    eapply (ytests_seq _ p pre m n e x); trivial; [apply lent_in; apply in_app_iff; right; now left|].
    destruct (vtest pre m n x) as [[n' z]|].
    + destruct z.
      * injection E as <-. exists (Tree (et e x) :: map Tree (ets bs) ++ G'). split; [perm|]. split; [reflexivity|].
        exists s, bs, G'. splits; trivial. lia.
      * change (x :: map snd bs) with (map snd ((e, x) :: bs)) in E. change (e :: map fst bs) with (map fst ((e, x) :: bs)).
        eapply safe_perm; [|eapply safe_mono; [apply le_n| |apply (IH f n' ((e, x) :: bs) L' G' l' o R' Hl'); [lia| |exact E]]].
        -- change (map Tree (ets ((e, x) :: bs))) with (Tree (et e x) :: map Tree (ets bs)). perm.
        -- intros r G3 H. destruct o as [k [[l2 bf] rm]|l2]; destruct r as [k' [[L2 bf'] rm']|L2]; trivial.
           destruct H as (-> & s' & bs' & G1 & H1 & H2 & H3 & H4 & H5). split; [reflexivity|]. exists s', bs', G1.
           splits; trivial; try apply H5. cbn [length] in H4. lia.
        -- constructor; trivial.
    + injection E as <-.
      seqq 0 0 [Tree (et e x)] (G' ++ map Tree (ets bs)) (fun (_ : unit) (G : list own) => G = []); [apply et_drop|].
      intros [] G2 ->. cbn [app].
      seqq 0 0 (map Tree (ets bs)) G' (fun (_ : unit) (G : list own) => G = []); [apply ets_drop|].
      intros [] G2 ->. apply safe_ret. exists s. auto.
Qed.

Lemma ylist_remove_first : forall n L s G l o, drl L s G -> l_lax l s -> c_list_remove_first pre m n l = Ok o ->
  safe (2 * length s) (xlist_remove_first n L p) G
    (fun r G' => match o, r with
       | Done k (l', rm), Done k' (L', rm') => k' = k /\ exists s' G1, drl L' s' G1 /\ l_lax l' s' /\
           match rm, rm' with
           | None, None => G' = G1
           | Some x, Some e => good (e, x) /\ G' = Tree (et e x) :: G1
           | _, _ => False
           end
       | Unwound l', Unwound L' => exists s', drl L' s' G' /\ l_lax l' s'
       | _, _ => False
       end).
Proof using Hp.
  intros n L s G l o R Hl E. unfold xlist_remove_first. unfold c_list_remove_first in E. rewrite (drl_len _ _ _ R).
  assert (El : l_len l = length s) by apply Hl. rewrite El in E.
  assert (X : exists o1, c_lrf_loop pre m (S (length s)) n (map snd (@nil (hewh * entry))) l = Ok o1 /\
    o = match o1 with Unwound l' => Unwound l' | Done n (remaining, before, removed) =>
          Done n (fold_left (fun acc e => l_push_front_mut e acc) before remaining, removed) end).
  { apply cbind_inv in E. destruct E as [(l' & E & ->)|(k & [[l' bf] rm] & E & F)]; eexists; (split; [exact E|]); [reflexivity|].
    now injection F as <-. }
  destruct X as (o1 & E1 & ->).
  assert (S := ylrf_loop s (S (length s)) n [] L G l o1 R Hl ltac:(lia) ltac:(constructor) E1).
  cbn [map ets app] in S. seq 0 (2 * length s) G (@nil own) ltac:(exact S).
  intros r G' H. rewrite app_nil_r. destruct o1 as [k [[l' bf] rm]|l']; destruct r as [k' [[L' bf'] rm']|L']; try destruct H as [].
  - destruct H0 as (s' & bs & G1 & Gb & -> & -> & Lb & RL & Rl & Hr). cbn [length plus] in Lb. subst k'.
    pose proof (lax_fold_push (map snd bs) l' s' Rl) as Rl'.
    destruct rm as [x|]; destruct rm' as [e|]; try (destruct Hr; fail).
    + destruct Hr as (Ge & ->).
      seq (2 * length bs) 0 (map Tree (ets bs) ++ G1) [Tree (et e x)] ltac:(apply (drl_push_back bs L' s' G1 RL Gb)).
      intros L2 G2 R2. exists (Tree (et e x) :: G2). split; [perm|]. split; [reflexivity|]. exists (rev (map snd bs) ++ s'), G2. auto.
    + subst G'.
      seq (2 * length bs) 0 (map Tree (ets bs) ++ G1) (@nil own) ltac:(apply (drl_push_back bs L' s' G1 RL Gb)).
      intros L2 G2 R2. rewrite app_nil_r. apply safe_ret. split; [reflexivity|]. exists (rev (map snd bs) ++ s'), G2. auto.
  - apply safe_ret. eauto.
Qed.

(** Reading. *)
Definition yfound (G : list own) (o : crash unit (option entry)) (r : crash unit (option hewh)) : Prop :=
  match o, r with
  | Done k x, Done k' y => k' = k /\ found G x y
  | Unwound _, Unwound _ => True
  | _, _ => False
  end.

Lemma yfind_loop : forall s us (G : list own) n rem o, tchain s us ->
  (forall t, In t us -> lent t G) -> length s <= rem -> c_find pre m n s = Ok o ->
  safe 0 (xfind_loop p n rem (hd_error (map pa us))) G (fun r G' => G' = G /\ yfound G o r).
Proof using Hp.
  induction s as [|x s IH]; intros us G n rem o Ch H L E; cbn [c_find] in E.
  - inversion Ch; subst. injection E as <-. cbn [map hd_error]. destruct rem; cbn [xfind_loop]; apply safe_ret; repeat split.
  - destruct (chain_cons_lent x s us G Ch H) as (a & v & e & us' & -> & Ee & Ch' & Ln & Lv & Le & H').
    cbn [length] in *. destruct rem as [|rem]; [lia|]. cbn [xfind_loop].
    eexists _, _. split; [exact Ln|]. intros _. cbn [t_isN].
    eexists _, _. split; [exact Lv|]. intros _. cbn [t_isE].
    apply (ytests_seq _ p pre m n e x); trivial. rewrite ask_vtest in E. destruct (vtest pre m n x) as [[n' y]|].
    + destruct y.
      * injection E as <-. apply safe_ret. split; [reflexivity|]. split; [reflexivity|]. exists e. auto.
      * apply IH; trivial. lia.
    + injection E as <-. now apply safe_ret.
Qed.
End Tests.

Lemma drl_lent : forall L s ts (G : list own), drl L s (map Tree ts) -> (forall t, In t ts -> lent t G) ->
  exists us, tchain s us /\ (forall t, In t us -> lent t G) /\ hl_head L = hd_error (map pa us) /\ hl_len L = length s.
Proof.
  intros L s ts G R H. destruct (drl_inv _ _ _ R) as (us & tl & -> & Ch & Lt & ->).
  exists us. splits; trivial. intros t I. apply H. apply in_app_iff. now left.
Qed.

Lemma ybk_find : forall p m h, ytests p (same_hash h) m -> forall n bk c ts (G : list own) o, dcont (HLeaf bk) c ts ->
  (forall t, In t ts -> lent t G) -> c_b_find n h m bk = Ok o ->
  safe 0 (xbk_find p n c) G (fun r G' => G' = G /\ yfound G o r).
Proof.
  intros p m h Hp n bk c ts G o Hc H E. inversion Hc as [|e x Ex|L l s ts' R1 R2]; subst; cbn [xbk_find c_b_find] in *.
  - assert (Le : lent (et e x) G) by (apply H; now left). rewrite ask_vtest in E.
    apply (ytests_seq _ p (same_hash h) m n e x); trivial. destruct (vtest _ m n x) as [[n' y]|]; injection E as <-; apply safe_ret.
    + split; [reflexivity|]. split; [reflexivity|]. destruct y; [exists e; auto|reflexivity].
    + now split.
  - rewrite (lax_elems l s R1) in E. cbn [bind] in E.
    destruct (drl_lent _ _ _ G R2 H) as (us & Ch & Lu & -> & ->). now apply (yfind_loop p (same_hash h) m Hp s us G n (length s)).
Qed.

(** ** What a call on a node leaves *)
Definition agree {X} (o : crash node (node * X)) (r : crash (C * bool) (C * X)) (G : list own) : Prop :=
  match o, r with
  | Done k (n', x), Done k' (c, x') => k' = k /\ x' = x /\ exists ts, G = map Tree ts /\ dcont n' c ts
  | Unwound n', Unwound (c, _) => exists ts, G = map Tree ts /\ dcont n' c ts
  | _, _ => False
  end.

Definition leafo {X} (o : crash (hbucket K V) (hbucket K V * X)) : crash node (node * X) :=
  match o with Done k (bk, x) => Done k (HLeaf bk, x) | Unwound bk => Unwound (HLeaf bk) end.

Lemma leafo_inv : forall X (x : res (crash (hbucket K V) (hbucket K V * X))) o,
  cbind x (fun b' => HLeaf b') (fun n '(b', new) => Ok (Done n (HLeaf b', new))) = Ok o -> exists ob, x = Ok ob /\ o = leafo ob.
Proof.
  intros X x o H. apply cbind_inv in H. destruct H as [(bk & -> & ->)|(k & [bk y] & -> & F)]; eexists; (split; [reflexivity|]); [reflexivity|].
  now injection F as <-.
Qed.

Section Insert.
Variable keq : K -> K -> bool.
Notation mk e := (matches_key (V := V) keq (e_key e) (e_hash e)).

Lemma ytests_key : forall (e : entry) (a : hewh), snd a = e_hash e ->
  ytests (xmatches (fun k' => keq k' (e_key e)) (snd a)) (same_hash (e_hash e)) (mk e).
Proof. intros e a ->. exact (ytests_ok (fun k' => keq k' (e_key e)) (e_hash e)). Qed.

Lemma ybk_insert : forall p e, ytests p (same_hash (e_hash e)) (mk e) -> forall n bk c ts a cap o, dcont (HLeaf bk) c ts ->
  c_b_insert keq n e bk = Ok o -> snd a = e_hash e -> blen bk <= cap ->
  safe (2 * cap + 2) (xbk_insert p n a c) (Tree (et a e) :: map Tree ts) (agree (leafo o)).
Proof.
  intros p e Hp n bk c ts a cap o Hc E Ea Hcap.
  inversion Hc as [|old x Ex|L l s ts' R1 R2]; subst; cbn [xbk_insert c_b_insert blen] in *.
  - rewrite ask_vtest in E.
    apply (ytests_seq _ p (same_hash (e_hash e)) (mk e) n old x); trivial; [apply lent_in; right; now left|].
    destruct (vtest _ (mk e) n x) as [[n' y]|].
    + destruct y.
      * injection E as <-. seqq 0 0 [Tree (et old x)] [Tree (et a e)] (fun (_ : unit) (G : list own) => G = []); [apply et_drop|].
        intros [] G ->. apply safe_ret. cbn [leafo agree]. splits; trivial. exists [et a e]. split; [reflexivity|]. now constructor.
      * injection E as <-.
        eexists _, _. split; [apply lent_in; right; now left|]. fold (et old x).
        seqq 2 2 [Tree (et old x)] [Tree (et a e); Tree (et old x)] (fun L' G' => drl L' [x] G').
        { apply (drl_push hl_new [] [] old x); trivial. apply drl_new. }
        intros L1 G1 R1.
        seqq 2 0 (Tree (et a e) :: G1) [Tree (et old x)] (fun L' G' => drl L' [e; x] G').
        { apply (drl_push L1 [x] G1 a e); trivial. }
        intros L2 G2 R2.
        seqq 0 0 [Tree (et old x)] G2 (fun (_ : unit) (G : list own) => G = []); [apply et_drop|].
        intros [] G ->. apply safe_ret. cbn [app leafo agree]. splits; trivial.
        apply dc_list with (s := [e; x]); trivial. apply lax_push, lax_push. now split.
    + injection E as <-. seqq 0 0 [Tree (et a e)] [Tree (et old x)] (fun (_ : unit) (G : list own) => G = []); [apply et_drop|].
      intros [] G ->. apply safe_ret. exists [et old x]. split; [reflexivity|exact Hc].
  - assert (El : l_len l = length s) by apply R1.
    assert (X : exists o1, c_list_remove_first (same_hash (e_hash e)) (mk e) n l = Ok o1 /\
      o = match o1 with Unwound l' => Unwound (BCollision l') | Done n (l', removed) => Done n (BCollision (l_push_front_mut e l'), negb (is_some removed)) end).
    { apply cbind_inv in E. destruct E as [(l' & E & ->)|(k & [l' rm] & E & F)]; eexists; (split; [exact E|]); [reflexivity|].
      now injection F as <-. }
    destruct X as (o1 & E1 & ->).
    eapply (safe_seq _ _ _ (2 * length s) 2 _ _ (map (@Tree C) ts) [Tree (et a e)]);
      [apply (ylist_remove_first p _ (mk e) Hp n L s _ l o1 R2 R1 E1)|perm| |lia].
    intros r G' H. destruct o1 as [k [l' rm]|l']; destruct r as [k' [L' rm']|L']; try (destruct H; fail).
    + destruct H as (-> & s' & G1 & RL & Rl & Hr).
      seqq 0 2 G' [Tree (et a e)] (fun (_ : unit) G => G = G1 /\ is_some rm' = is_some rm).
      { destruct rm as [x|]; destruct rm' as [w|]; try (destruct Hr; fail).
        - destruct Hr as (_ & ->).
          apply (safe_frame tkids _ 0 0 _ [Tree (et w x)] G1 (fun _ G => G = [])); [apply et_drop|perm| |lia].
          intros [] G2 ->. exists G1. cbn [app is_some]. auto.
        - subst G'. apply safe_ret. auto. }
      intros [] G2 (-> & Er). cbn [leafo agree].
      seqq 2 0 (Tree (et a e) :: G1) (@nil own) (fun L2 G' => drl L2 (e :: s') G'); [now apply drl_push|].
      intros L2 G3 R3. rewrite app_nil_r. apply safe_ret. rewrite <- Er. split; [reflexivity|]. split; [reflexivity|].
      apply dc_list with (s := e :: s'); trivial. now apply lax_push.
    + destruct H as (s' & RL & Rl).
      seqq 0 2 [Tree (et a e)] G' (fun (_ : unit) (G : list own) => G = []); [apply et_drop|].
      intros [] G ->. apply safe_ret. cbn [leafo agree app]. now apply dc_list with (s := s').
Qed.

Variable ubits : N.
Variable dbg : bool.
Variable b : N.
Hypothesis Hb : (0 < b)%N.
Hypothesis Hdeg : (2 ^ b <= ubits)%N.
Hypothesis Hub : (ubits <= 64)%N.
Notation degree := (2 ^ b)%N.
Notation cins := (c_hn_insert ubits dbg keq).
Notation xins := (xn_insert ubits dbg keq).

(** Leaves at most [r] levels down, with at most [cap] entries. *)
Fixpoint fit (r cap : nat) (n : node) : Prop :=
  match n with
  | HLeaf bk => blen bk <= cap
  | HBranch s => match r with 0 => False | S r' => Forall (fit r' cap) (sa_array s) end
  end.

(** Into an empty branch nothing is compared. *)
Lemma yins_empty : forall fuel n d x a o, cins (S fuel) n x new_empty_branch d degree = Ok o -> snd a = e_hash x ->
  exists s1, o = Done n (HBranch s1, true) /\ sa_array s1 = [HLeaf (BSingle x)] /\
  safe 1 (xins (S fuel) n (e_key x) a (TB sa_new) d degree) [Tree (et a x)]
    (fun r G => exists c ts, r = Done n (c, true) /\ dcont (HBranch s1) c ts /\ G = map Tree ts).
Proof.
  intros fuel n d x a o H Ea. unfold new_empty_branch in H. cbn [c_hn_insert xn_insert] in *. rewrite Ea.
  inv H oi Ei. rewrite Ei. inv H i Eu. cbn [lift pbind]. rewrite Eu. cbn [lift pbind].
  inv H g Eg. pose proof (dsim_get_mut _ _ _ _ _ _ _ dsim_new Eg) as Sg.
  destruct g as [[nd w]|].
  { exfalso. destruct Sg as (Hg & ts1 & t & ts2 & w' & E & _). destruct ts1; discriminate. }
  rewrite Sg. cbn [lift pbind]. inv H s2 Es. injection H as <-.
  destruct (dsim_set_none _ _ _ _ _ _ _ _ dsim_new Eg Es) as (ts1 & ts2 & E & Hset).
  destruct ts1; [|discriminate]. destruct ts2; [|discriminate]. cbn [app] in Hset.
  exists s2. split; [reflexivity|]. split.
  - unfold sa_set in Es. inv Es x1 Y1. inv Es x2 Y2. destruct x2; cbn [sa_array sa_new] in Es.
    + inv Es x3 Y3. destruct n0; discriminate.
    + inv Es x3 Y3. inv Es x4 Y4. inv Es x5 Y5. injection Es as <-. cbn [sa_array].
      destruct x3; cbn in Y5; [now injection Y5 as <-|discriminate].
  - exists 0, [et a x], []. splits; trivial. intros p.
    destruct (Hset (PT p (TS a) [et a x])) as (s2' & E2 & S2); [now repeat constructor|].
    cbn [pa] in E2. rewrite E2. cbn [lift pbind]. apply safe_ret.
    exists (TB s2'), [PT p (TS a) [et a x]]. splits; trivial. now apply dsim_cont.
Qed.

Lemma yins_branch : forall r n d s s' ts e a fuel cap nb o,
  (forall c0 cc tts o0, fit r cap c0 -> cins fuel n e c0 (S d) degree = Ok o0 -> dcont c0 cc tts ->
     safe nb (xins fuel n (e_key e) a cc (S d) degree) (Tree (et a e) :: map Tree tts) (agree o0)) ->
  fit (S r) cap (HBranch s) -> cins (S fuel) n e (HBranch s) d degree = Ok o -> dsim s s' ts -> snd a = e_hash e ->
  safe (1 + nb) (xins (S fuel) n (e_key e) a (TB s') d degree) (Tree (et a e) :: map Tree ts) (agree o).
Proof.
  intros r n d s s' ts e a fuel cap nb o IH T H S Ea. cbn [c_hn_insert xn_insert fit] in *. rewrite Ea.
  inv H oi Ei. rewrite Ei. inv H i Eu. cbn [lift pbind]. rewrite Eu. cbn [lift pbind].
  inv H g Eg. pose proof (dsim_get_mut _ _ _ _ _ _ _ S Eg) as Sg.
  destruct g as [[m w]|].
  - destruct Sg as (Hg & ts1 & t & ts2 & w' & -> & Ht & Eg' & Hw & _ & Harr).
    rewrite Eg'. cbn [lift pbind].
    assert (X : exists o1, cins fuel n e m (Datatypes.S d) degree = Ok o1 /\
      o = match o1 with Unwound c' => Unwound (HBranch (w c')) | Done n (c', b) => Done n (HBranch (w c'), b) end).
    { apply cbind_inv in H. destruct H as [(c' & H & ->)|(k & [c' f] & H & F)]; eexists; (split; [exact H|]); [reflexivity|].
      now injection F as <-. }
    destruct X as (o1 & E1 & ->).
    inversion Ht as [n1 p cc tts Hc]; subst. cbn [pa].
    seqq 1 nb [Tree (PT p cc tts)] (Tree (et a e) :: map Tree (ts1 ++ ts2))
      (fun r G => exists a', r = (a', cc) /\ G = Held a' :: map Tree tts).
    { eapply dmake_mut_ok; eauto. }
    intros r0 G' (p' & -> & ->).
    assert (Tn : fit r cap m).
    { destruct (Harr m) as (l1 & l2 & E2 & _). rewrite E2 in T. rewrite Forall_forall in T. apply T, in_elt. }
    specialize (IH m cc tts o1 Tn E1 Hc).
    eapply (safe_seq _ _ _ nb 0 _ _ (Tree (et a e) :: map Tree tts) (Held p' :: map Tree (ts1 ++ ts2))); [exact IH|perm| |lia].
    intros r1 G1 HX. destruct o1 as [k [n' f]|n']; destruct r1 as [k1 [c1 f1]|[c1 fl]]; cbn [agree] in HX; try (destruct HX; fail).
    + destruct HX as (-> & -> & ts' & -> & Hc').
      exists ts', (map Tree (ts1 ++ ts2)). split; [perm|]. split; [eapply dcont_kids; eauto|].
      exists (map Tree (ts1 ++ PT p' c1 ts' :: ts2)). split; [perm|]. cbn [agree]. splits; trivial.
      exists (ts1 ++ PT p' c1 ts' :: ts2). split; [reflexivity|].
      apply dsim_cont. apply (Hw n' (PT p' c1 ts')). now constructor.
    + destruct HX as (ts' & -> & Hc').
      exists ts', (map Tree (ts1 ++ ts2)). split; [perm|]. split; [eapply dcont_kids; eauto|].
      exists (map Tree (ts1 ++ PT p' c1 ts' :: ts2)). split; [perm|]. cbn [agree].
      exists (ts1 ++ PT p' c1 ts' :: ts2). split; [reflexivity|].
      apply dsim_cont. apply (Hw n' (PT p' c1 ts')). now constructor.
  - rewrite Sg. cbn [lift pbind]. inv H s2 Es. injection H as <-.
    destruct (dsim_set_none _ _ _ _ _ _ _ _ S Eg Es) as (ts1 & ts2 & -> & Hset).
    exists nb, [et a e], (map Tree (ts1 ++ ts2)). splits; trivial. intros p.
    destruct (Hset (PT p (TS a) [et a e])) as (s2' & E2 & S2); [now repeat constructor|].
    cbn [pa] in E2. rewrite E2. cbn [lift pbind].
    exists (map Tree (ts1 ++ PT p (TS a) [et a e] :: ts2)). split; [perm|]. cbn [agree]. splits; trivial.
    exists (ts1 ++ PT p (TS a) [et a e] :: ts2). split; [reflexivity|]. now apply dsim_cont.
Qed.

Lemma yn_insert : forall r n d m c ts e a cap fuel o, fit r cap m -> d + r = D b -> 1 <= cap ->
  cins fuel n e m d degree = Ok o -> dcont m c ts -> snd a = e_hash e ->
  safe (2 * r + 2 * cap + 2) (xins fuel n (e_key e) a c d degree) (Tree (et a e) :: map Tree ts) (agree o).
Proof using Hb Hdeg Hub.
  induction r as [|r IH]; intros n d m c ts e a cap fuel o T Hd Hcap H Hc Ea; (destruct fuel as [|fuel]; [discriminate|]);
    (destruct m as [s|bk]; [try (destruct T; fail)|]).
  2:{ inversion Hc as [s0 s' ts' E1 E2 F| |]; subst.
      eapply safe_mono; [|intros ? ? X; exact X|eapply (yins_branch r n d s s' ts e a fuel cap (2 * r + 2 * cap + 2) o)]; eauto; try lia.
      - intros c0 cc tts o0 T0 H0 C0. apply (IH n (S d) c0 cc tts e a cap fuel); trivial. lia.
      - now repeat split. }
  all: assert (P : blen bk <= cap) by exact T; cbn [c_hn_insert] in H; inv H oi Ei.
  all: assert (X : exists o1, c_b_find n (e_hash e) (mk e) bk = Ok o1 /\
         match o1 with
         | Unwound _ => o = Unwound (HLeaf bk)
         | Done n fo =>
             (if negb (is_some oi) then
                cbind (c_b_insert keq n e bk) (fun b' => HLeaf b') (fun n '(b', new) => Ok (Done n (HLeaf b', new)))
              else if is_some fo then
                cbind (c_b_insert keq n e bk) (fun b' => HLeaf b') (fun n '(b', new) => Ok (Done n (HLeaf b', new)))
              else match bk with
                   | BCollision _ => Panic
                   | BSingle old =>
                       cbind (cins fuel n old new_empty_branch d degree) (fun n' => n') (fun n '(n1, _) =>
                       cbind (cins fuel n e n1 d degree) (fun n' => n') (fun n '(n2, _) =>
                       Ok (Done n (n2, true))))
                   end) = Ok o
         end);
    [apply cbind_inv in H; destruct H as [(u & H & ->)|(k & fo & H & F)]; eexists; (split; [exact H|]); [reflexivity|exact F]|].
  all: destruct X as (o1 & Ef & Ho); clear H.
  all: pose proof (fun X => ybk_find _ _ _ (ytests_key e a Ea) n bk c ts (Tree (et a e) :: map Tree ts) o1 Hc X Ef) as Sf.
  all: lapply Sf; [clear Sf; intros Sf|intros t I; apply lent_in; right; now apply in_map].
  all: assert (Ei' : index_from_hash dbg (snd a) d degree = Ok oi) by (now rewrite Ea).
  all: assert (Etr : xins (S fuel) n (e_key e) a c d degree =
        (let matching := xmatches (fun k' => keq k' (e_key e)) (snd a) in
         let* r := xbk_find matching n c in
         match r with
         | Unwound _ => let* _ := drop_ptr tkids 1 (fst a) in Ret (Unwound (c, false))
         | Done n found =>
             if negb (is_some oi) then xbk_insert matching n a c
             else if is_some found then xbk_insert matching n a c
             else match c with
                  | TS old =>
                      Clone (fst old)
                        (let* _ := drop_ptr tkids 1 (fst old) in
                         read_entry old (fun kv =>
                           let* r := xins fuel n (fst kv) old (TB sa_new) d degree in
                           match r with
                           | Unwound l => let* _ := drop_ptr tkids 1 (fst a) in Ret (Unwound l)
                           | Done n (c1, _) =>
                               let* r := xins fuel n (e_key e) a c1 d degree in
                               match r with
                               | Unwound l => Ret (Unwound l)
                               | Done n (c2, _) => Ret (Done n (c2, true))
                               end
                           end))
                  | _ => Fail
                  end
         end)) by (inversion Hc; subst; cbn [xn_insert]; rewrite Ei'; reflexivity).
  all: rewrite Etr; cbv zeta; clear Etr.
  1: eapply (safe_seq _ _ _ 0 (2 * cap + 2) _ _ (Tree (et a e) :: map Tree ts) []); [exact Sf|perm| |lia].
  2: eapply (safe_seq _ _ _ 0 (2 * S r + 2 * cap + 2) _ _ (Tree (et a e) :: map Tree ts) []); [exact Sf|perm| |lia].
  all: intros r1 G' (-> & HF); rewrite app_nil_r; destruct o1 as [k fo|[]]; destruct r1 as [k1 fo1|[]]; cbn [yfound] in HF; try (destruct HF; fail).
  2, 4: subst o; seqq 0 0 [Tree (et a e)] (map Tree ts) (fun (_ : unit) (G : list own) => G = []); [apply et_drop|];
        intros [] G ->; apply safe_ret; exists ts; split; [reflexivity|exact Hc].
  all: destruct HF as (-> & Fo).
  all: assert (Er : is_some fo1 = is_some fo) by (destruct fo; cbn [found] in Fo; [now destruct Fo as (? & -> & _)|now subst]).
  all: rewrite Er; clear Er.
  - assert (Z : oi = None).
    { rewrite (index_ok ubits dbg b Hb Hdeg Hub) in Ei by lia. destruct (Nat.ltb_spec d (D b)); [lia|]. congruence. }
    subst oi. cbn [is_some negb] in *. apply leafo_inv in Ho. destruct Ho as (ob & Eb & ->).
    eapply safe_mono; [|intros ? ? X; exact X|apply (ybk_insert _ e (ytests_key e a Ea) k bk c ts a cap ob Hc Eb Ea P)]. lia.
  - assert (Z : is_some oi = true).
    { rewrite (index_ok ubits dbg b Hb Hdeg Hub) in Ei by lia. destruct (Nat.ltb_spec d (D b)); [|lia]. injection Ei as <-. reflexivity. }
    rewrite Z in *. cbn [negb] in *. destruct (is_some fo).
    + apply leafo_inv in Ho. destruct Ho as (ob & Eb & ->).
      eapply safe_mono; [|intros ? ? X; exact X|apply (ybk_insert _ e (ytests_key e a Ea) k bk c ts a cap ob Hc Eb Ea P)]. lia.
    + inversion Hc as [|old x Ex|L l s ts' R1 R2]; subst; [|discriminate].
      destruct fuel as [|fuel]; [discriminate|].
      assert (W : exists o2, cins (S fuel) k x new_empty_branch d degree = Ok o2).
      { destruct (cins (S fuel) k x new_empty_branch d degree) as [o2| |]; try discriminate. eauto. }
      destruct W as (o2 & W). destruct (yins_empty fuel k d x old o2 W Ex) as (s1 & -> & Ea1 & S1).
      assert (Y : exists o3, cins (S fuel) k e (HBranch s1) d degree = Ok o3 /\
        o = match o3 with Unwound n' => Unwound n' | Done n (n2, _) => Done n (n2, true) end).
      { unfold cbind at 1 in Ho. rewrite W in Ho. cbn [bind] in Ho. apply cbind_inv in Ho.
        destruct Ho as [(c' & H & ->)|(k2 & [c' f] & H & F)]; eexists; (split; [exact H|]); [reflexivity|]. now injection F as <-. }
      destruct Y as (o3 & E3 & ->). clear Ho W.
      eexists _, _. split; [apply lent_in; right; now left|]. fold (et old x).
      seqq 0 (2 * S r + 2 * cap + 2) [Tree (et old x)] [Tree (et a e); Tree (et old x)]
        (fun (_ : unit) (G : list own) => G = []); [apply et_drop|].
      intros [] G ->. cbn [app].
      apply (entry_lent _ old x); [apply lent_in; right; now left|]. cbn [fst].
      eapply (safe_seq _ _ _ 1 (1 + (2 * r + 2 * cap + 2)) _ _ [Tree (et old x)] [Tree (et a e)]); [exact S1|perm| |lia].
      intros r1 G1 (c1 & ts1 & -> & Hc1 & ->).
      inversion Hc1 as [s0 s' ts' E1 E2 F| |]; subst.
      eapply (safe_seq _ _ _ (1 + (2 * r + 2 * cap + 2)) 0 _ _ (Tree (et a e) :: map Tree ts1) []); [|perm| |lia].
      { apply (yins_branch r k d s1 s' ts1 e a fuel cap (2 * r + 2 * cap + 2) o3); trivial.
        - intros c0 cc tts o0 T0 H0 C0. apply (IH k (S d) c0 cc tts e a cap fuel); trivial. lia.
        - cbn [fit]. rewrite Ea1. constructor; [destruct r; exact Hcap|constructor].
        - now repeat split. }
      intros r2 G2 HX. rewrite app_nil_r. destruct o3 as [k2 [n2 f2]|n2]; destruct r2 as [k3 [c2 f3]|[c2 fl]]; cbn [agree] in HX; try (destruct HX; fail).
      * destruct HX as (-> & -> & ts3 & -> & Hc2). apply safe_ret. cbn [agree]. splits; trivial. eauto.
      * destruct HX as (ts3 & -> & Hc2). apply safe_ret. cbn [agree]. eauto.
Qed.
End Insert.

(** ** Lookup, writes and removal *)
Lemma ytentry_mut : forall n a (c : C),
  safe 1 (xtentry_mut n a) [Tree (PT a c [])]
    (fun r G => exists sh : bool,
       match r with
       | Done m (a', c') => c' = c /\ G = [Held a'] /\ n = (if sh then S (S m) else m)
       | Unwound _ => sh = true /\ n < 2 /\ G = [Tree (PT a c [])]
       end).
Proof.
  intros n a c. unfold xtentry_mut. exists c, [], []. split; [apply Permutation_refl|]. split.
  - exists c, []. split; [exists (PT a c []); split; [now left|constructor]|].
    intros Sh. inversion Sh as [? ? ? Kk Fs]; subst. cbn [map] in Kk. rewrite Kk.
    destruct n as [|[|n]]; cbn [tucall]; [apply safe_ret; exists true; split; [trivial|]; split; [lia|reflexivity]..|].
    cbn [clone_all]. exists 0. split; [reflexivity|]. intros a'.
    change (drop_ptr tkids 2 a) with (drop_ptr (@tkids K V) 2 (pa (PT a c []))).
    eapply (safe_seq _ _ _ 0 0 _ _ [Tree (PT a c [])] [Held a']); [apply safe_drop; cbn; lia|perm| |lia].
    intros [] G' ->. apply safe_ret. exists true. repeat split.
  - intros _ _. exists [Held a]. split; [apply Permutation_refl|]. exists false. repeat split.
Qed.

Section Lookup.
Variable ubits : N.
Variable dbg : bool.
Context {Q : Type}.
Variable borrow : K -> Q.
Variable qeq : Q -> Q -> bool.
Variable q : Q.
Variable h : N.
Notation m := (@matches K V Q borrow qeq q h).
Notation xm := (xmatches (V := V) (fun k => qeq (borrow k) q) h).

Lemma ytests_q : ytests xm (same_hash h) m.
Proof. exact (ytests_ok (fun k => qeq (borrow k) q) h). Qed.

Lemma yn_get : forall fuel n nd c ts (G : list own) d degree o, dcont nd c ts -> (forall t, In t ts -> lent t G) ->
  c_hn_get ubits dbg borrow qeq fuel n q h nd d degree = Ok o ->
  safe 0 (xn_get ubits dbg borrow qeq fuel n q h c d degree) G (fun r G' => G' = G /\ yfound G o r).
Proof.
  induction fuel as [|fuel IH]; intros n nd c ts G d degree o Hc HG H; [discriminate|]. destruct nd as [s|bk].
  - inversion Hc as [s0 s' ts' E1 E2 F| |]; subst. cbn [c_hn_get xn_get] in *.
    inv H oi Ei. rewrite Ei. inv H i Eu. cbn [lift pbind]. rewrite Eu. cbn [lift pbind].
    inv H g Eg. assert (S : dsim s s' ts) by now repeat split.
    pose proof (dsim_get _ _ _ _ _ _ _ S Eg) as Sg. destruct g as [n0|].
    + destruct Sg as (t & It & Ht & Eg'). rewrite Eg'. cbn [lift pbind].
      inversion Ht as [n1 p cc tts Hc']; subst. cbn [pa].
      assert (Lt := HG _ It). eexists _, _. split; [exact Lt|]. intros _.
      apply (IH n n0 cc tts); trivial.
      intros u Iu. eapply lent_kid; eauto.
    + rewrite Sg. cbn [lift pbind]. injection H as <-. apply safe_ret. split; [reflexivity|]. split; reflexivity.
  - cbn [c_hn_get] in H.
    assert (X := ybk_find _ _ _ ytests_q n bk c ts G o Hc HG H).
    inversion Hc; subst; exact X.
Qed.

(** ** Writes through [get_mut] *)
Lemma ybk_get_mut : forall g n bk c ts cap, dcont (HLeaf bk) c ts -> blen bk <= cap ->
  (forall sh, exists o, c_b_get_mut borrow qeq n sh q h g bk = Ok o) ->
  safe (2 * cap + 5) (xbk_get_mut xm g n c) (map Tree ts)
    (fun r G => exists sh o, c_b_get_mut borrow qeq n sh q h g bk = Ok o /\ agree (leafo o) r G).
Proof.
  intros g n bk c ts cap Hc Hcap Hv.
  inversion Hc as [|o x Ex|L l s ts' R1 R2]; subst; cbn [xbk_get_mut c_b_get_mut blen] in *.
  - apply (ytests_seq _ xm (same_hash h) m n o x); trivial; [apply ytests_q|apply lent_in; now left|].
    assert (A : forall sh, ask (same_hash h) m n (BSingle x) x (fun n0 m0 => if (m0 : bool) then
        if (sh : bool) then ucall n0 (BSingle x) (fun n1 => ucall n1 (BSingle x) (fun n2 => Ok (Done n2 (BSingle (e_write g x), Some (e_val x)))))
        else Ok (Done n0 (BSingle (e_write g x), Some (e_val x))) else Ok (Done n0 (BSingle x, None))) =
      match vtest (same_hash h) m n x with
      | None => Ok (Unwound (BSingle x))
      | Some (n', true) => if (sh : bool) then ucall n' (BSingle x) (fun n1 => ucall n1 (BSingle x) (fun n2 => Ok (Done n2 (BSingle (e_write g x), Some (e_val x)))))
        else Ok (Done n' (BSingle (e_write g x), Some (e_val x)))
      | Some (n', false) => Ok (Done n' (BSingle x, None))
      end).
    { intros sh. rewrite ask_vtest. destruct (vtest _ m n x) as [[n' []]|]; reflexivity. }
    destruct (vtest _ m n x) as [[n' []]|].
    + eapply (safe_seq _ _ _ 1 0 _ _ [Tree (et o x)] []); [apply (ytentry_mut n' (fst o) (TE (e_key x, e_val x)))|perm| |lia].
      intros [k [a' c']|u] G (sh & H).
      * destruct H as (-> & -> & Hk). cbn [app]. exists [], []. splits; trivial.
        apply safe_ret. exists sh, (Done k (BSingle (e_write g x), Some (e_val x))). split.
        -- refine (eq_trans (A sh) _). subst n'. destruct sh; reflexivity.
        -- cbn [leafo agree]. splits; trivial. exists [et (a', snd o) (e_write g x)]. split; [reflexivity|]. now constructor.
      * destruct H as (-> & Hk & ->). rewrite app_nil_r. apply safe_ret. exists true, (Unwound (BSingle x)). split.
        -- refine (eq_trans (A true) _). destruct n' as [|[|n']]; [reflexivity..|lia].
        -- exists [et o x]. split; [reflexivity|exact Hc].
    + apply safe_ret. exists true, (Done n' (BSingle x, None)). split; [exact (A true)|]. cbn [leafo agree]. splits; trivial.
      exists [et o x]. split; [reflexivity|exact Hc].
    + apply safe_ret. exists true, (Unwound (BSingle x)). split; [exact (A true)|]. exists [et o x]. split; [reflexivity|exact Hc].
  - assert (X : exists o1, c_list_remove_first (same_hash h) m n l = Ok o1).
    { destruct (Hv true) as (o & E). apply cbind_inv in E. destruct E as [(l' & E & _)|(k & a & E & _)]; eauto. }
    destruct X as (o1 & E1). rewrite E1. unfold cbind. cbn [bind]. clear Hv.
    assert (Els : l_len l = length s) by apply R1.
    eapply (safe_seq _ _ _ (2 * length s) 5 _ _ (map (@Tree C) ts) []);
      [apply (ylist_remove_first xm _ m ytests_q n L s _ l o1 R2 R1 E1)|perm| |lia].
    intros r G' H; rewrite app_nil_r. destruct o1 as [k [l' rm]|l']; destruct r as [k' [L' rm']|L']; try (destruct H; fail).
    2:{ destruct H as (s' & RL & Rl). apply safe_ret. exists true. eexists. split; [reflexivity|]. cbn [leafo agree]. now apply dc_list with (s := s'). }
    destruct H as (-> & s1 & G1 & RL & Rl & Hf).
    destruct rm as [x|]; destruct rm' as [o|]; try (destruct Hf; fail).
    + destruct Hf as (Eo & ->). unfold good in Eo. cbn [fst snd] in Eo.
      assert (Rp := lax_push _ _ x Rl). rewrite (lax_first _ _ Rp). cbn [hd_error option_map].
      assert (Rw := lax_write _ _ _ (e_write g) Rp).
      set (l2 := l_push_front_mut x l') in *. set (l3 := fst (l_first_mut (e_write g) l2)) in *.
      seqq 2 3 (Tree (et o x) :: G1) (@nil own) (fun L2 G' => drl L2 (x :: s1) G').
      { now apply drl_push. }
      intros L2 G2 (us & tl & -> & Ch & Lt & ->). rewrite app_nil_r.
      inversion Ch as [|x' s' t us' a Et Ch']; subst. destruct Et as [v e ts1 (-> & Ee)].
      cbn [hl_head HeapList.hl_last hl_len map hd_error pa app].
      seqq 1 2 [Tree (PT a (TLN v (hd_error (map pa us'))) (PT v (TLE e) [et e x] :: us'))] (map (@Tree C) tl)
        (fun r (G : list own) => exists a', r = (a', @TLN K V v (hd_error (map pa us'))) /\
           G = Held a' :: map (@Tree C) (PT v (TLE e) [et e x] :: us'));
        [exact (safe_make_mut tkids a (TLN v (hd_error (map pa us'))) (PT v (TLE e) [et e x] :: us'))|].
      intros r G (a' & -> & ->). cbn [map].
      seqq 1 1 [Tree (PT v (TLE e) [et e x])] (Held a' :: map (@Tree C) us' ++ map (@Tree C) tl)
        (fun r (G : list own) => exists v', r = (v', @TLE K V e) /\ G = Held v' :: map (@Tree C) [et e x]);
        [exact (safe_make_mut tkids v (TLE e) [et e x])|].
      intros r G (v' & -> & ->). cbn [map].
      (* the list with its first entry replaced *)
      assert (Put : forall p' (x' : entry), e_hash x' = e_hash x ->
        let nd := PT a' (TLN v' (hd_error (map pa us'))) (PT v' (TLE (p', snd e)) [et (p', snd e) x'] :: us') in
        drl (mkHL (Some a') (hd_error (map pa tl)) (length (x :: s1))) (x' :: s1) (map Tree ([nd] ++ tl))).
      { intros p' x' Ex' nd. exists [nd], tl. splits; trivial.
        apply (ch_cons TLN TLE terep x' s1 (PT v' (TLE (p', snd e)) [et (p', snd e) x']) us' a'); trivial.
        constructor. split; [trivial|]. cbn [snd]. now rewrite Ee. }
      eapply (safe_seq _ _ _ 1 0 _ _ [Tree (et e x)] (Held v' :: Held a' :: map (@Tree C) us' ++ map (@Tree C) tl));
        [apply (ytentry_mut k (fst e) (TE (e_key x, e_val x)))|perm| |lia].
      intros [j [p' c']|u] G (sh & H).
      * destruct H as (-> & -> & Hk). cbn [app].
        set (x' := e_write g x). set (e' := (p', snd e)).
        exists [], (Held v' :: Held a' :: map Tree us' ++ map Tree tl). splits; [perm|trivial|].
        exists [et e' x'], (Held a' :: map Tree us' ++ map Tree tl). splits; [unfold et, e', x'; cbn; perm|trivial|].
        exists (PT v' (TLE e') [et e' x'] :: us'), (map Tree tl). splits; [cbn [map]; perm| |].
        { cbn [tkids map pa]. f_equal. apply (chain_opt _ _ _ _ _ Ch'). }
        set (nd := PT a' (TLN v' (hd_error (map pa us'))) (PT v' (TLE e') [et e' x'] :: us')).
        exists (map Tree ([nd] ++ tl)). split; [perm|]. exists sh, (Done j (BCollision l3, Some (e_val x))). split.
        -- subst k. destruct sh; reflexivity.
        -- cbn [leafo agree]. splits; trivial. apply dc_list with (s := x' :: s1); [exact Rw|exact (Put p' x' eq_refl)].
      * destruct H as (-> & Hk & ->). cbn [app].
        exists [et e x], (Held a' :: map Tree us' ++ map Tree tl). splits; [unfold et; cbn; perm|trivial|].
        exists (PT v' (TLE e) [et e x] :: us'), (map Tree tl). splits; [cbn [map]; perm| |].
        { cbn [tkids map pa]. f_equal. apply (chain_opt _ _ _ _ _ Ch'). }
        specialize (Put (fst e) x eq_refl). rewrite <- surjective_pairing in Put. cbv zeta in Put.
        set (nd := PT a' (TLN v' (hd_error (map pa us'))) (PT v' (TLE e) [et e x] :: us')) in *.
        exists (map Tree ([nd] ++ tl)). split; [perm|]. exists true, (Unwound (BCollision l2)). split.
        -- destruct k as [|[|k]]; [reflexivity..|lia].
        -- cbn [leafo agree]. apply dc_list with (s := x :: s1); trivial.
    + subst G'. apply safe_ret. exists true. eexists. split; [reflexivity|]. cbn [leafo agree]. splits; trivial.
      now apply dc_list with (s := s1).
Qed.

Lemma yn_get_mut : forall g r n d degree nd c ts cap fuel, fit r cap nd ->
  (forall sh, exists o, c_hn_get_mut ubits dbg borrow qeq fuel n sh q h g nd d degree = Ok o) -> dcont nd c ts ->
  safe (r + 2 * cap + 5) (xn_get_mut ubits dbg borrow qeq fuel n q h g c d degree) (map Tree ts)
    (fun w G => exists sh o, c_hn_get_mut ubits dbg borrow qeq fuel n sh q h g nd d degree = Ok o /\ agree o w G).
Proof.
  intros g. induction r as [|r IH]; intros n d degree nd c ts cap fuel T H Hc;
    (destruct fuel as [|fuel]; [destruct (H true); discriminate|]); (destruct nd as [s|bk]; [try (destruct T; fail)|]).
  1, 3: cbn [c_hn_get_mut] in *;
    (eapply safe_mono; [| |enough (X : safe (2 * cap + 5) (xbk_get_mut xm g n c) (map Tree ts)
        (fun r G => exists sh o, c_b_get_mut borrow qeq n sh q h g bk = Ok o /\ agree (leafo o) r G));
      [inversion Hc; subst; exact X|apply ybk_get_mut; trivial]]);
    [lia
    |intros w G (sh & o & E & A); exists sh, (leafo o); split; [rewrite E; unfold cbind; cbn [bind]; destruct o as [k [bk' f]|bk']; reflexivity|exact A]
    |intros sh; destruct (H sh) as (o & E); apply leafo_inv in E; destruct E as (ob & E & _); eauto].
  inversion Hc as [s0 s' ts' E1 E2 F| |]; subst. cbn [c_hn_get_mut xn_get_mut fit] in *.
  assert (X : exists oi i y, index_from_hash dbg h d degree = Ok oi /\ unwrap oi = Ok i /\ sa_get_mut ubits dbg s i = Ok y).
  { destruct (H true) as (o & E). inv E oi Ei. inv E i Eu. inv E y Ey. exists oi, i, y. auto. }
  destruct X as (oi & i & y & Ei & Eu & Eg). rewrite Ei in *. cbn [lift pbind bind] in *. rewrite Eu in *. cbn [lift pbind bind] in *.
  rewrite Eg in *. cbn [bind] in *.
  assert (S : dsim s s' ts) by now repeat split. pose proof (dsim_get_mut _ _ _ _ _ _ _ S Eg) as Sg.
  destruct y as [[m0 w]|].
  - destruct Sg as (Hg & ts1 & t & ts2 & w' & -> & Ht & Eg' & Hw & _ & Harr).
    rewrite Eg'. cbn [lift pbind].
    inversion Ht as [n1 p cc tts Hc']; subst. cbn [pa].
    seqq 1 (r + 2 * cap + 5) [Tree (PT p cc tts)] (map Tree (ts1 ++ ts2))
      (fun r G => exists a', r = (a', cc) /\ G = Held a' :: map Tree tts).
    { eapply dmake_mut_ok; eauto. }
    intros r0 G' (p' & -> & ->).
    assert (Tn : fit r cap m0).
    { destruct (Harr m0) as (l1 & l2 & E3 & _). rewrite E3 in T. rewrite Forall_forall in T. apply T, in_elt. }
    eapply (safe_seq _ _ _ (r + 2 * cap + 5) 0 _ _ (map Tree tts) (Held p' :: map Tree (ts1 ++ ts2)));
      [apply (IH n (Datatypes.S d) degree m0 cc tts cap fuel); trivial|perm| |lia].
    { intros sh. destruct (H sh) as (o & E). apply cbind_inv in E. destruct E as [(? & E & _)|(? & ? & E & _)]; eauto. }
    intros r1 G1 (sh & o1 & Eo & HX).
    destruct o1 as [k [n' f]|n']; destruct r1 as [k1 [c1 f1]|[c1 fl]]; cbn [agree] in HX; try (destruct HX; fail).
    + destruct HX as (-> & -> & ts' & -> & Hc1).
      exists ts', (map Tree (ts1 ++ ts2)). split; [perm|]. split; [eapply dcont_kids; eauto|].
      exists (map Tree (ts1 ++ PT p' c1 ts' :: ts2)). split; [perm|]. exists sh. eexists. split; [rewrite Eo; reflexivity|].
      cbn [agree]. splits; trivial.
      exists (ts1 ++ PT p' c1 ts' :: ts2). split; [reflexivity|].
      apply dsim_cont. apply (Hw n' (PT p' c1 ts')). now constructor.
    + destruct HX as (ts' & -> & Hc1).
      exists ts', (map Tree (ts1 ++ ts2)). split; [perm|]. split; [eapply dcont_kids; eauto|].
      exists (map Tree (ts1 ++ PT p' c1 ts' :: ts2)). split; [perm|]. exists sh. eexists. split; [rewrite Eo; reflexivity|].
      cbn [agree].
      exists (ts1 ++ PT p' c1 ts' :: ts2). split; [reflexivity|].
      apply dsim_cont. apply (Hw n' (PT p' c1 ts')). now constructor.
  - rewrite Sg. cbn [lift pbind]. apply safe_ret. exists true. eexists. split; [reflexivity|]. cbn [agree]. splits; trivial.
    exists ts. split; [reflexivity|exact Hc].
Qed.

(** ** Removal *)
Lemma ybk_remove : forall n bk c ts cap o, dcont (HLeaf bk) c ts -> blen bk <= cap ->
  a_b_remove borrow qeq n q h bk = Ok o ->
  safe (2 * cap) (xbk_remove xm n c) (map Tree ts)
    (fun r G => match o, r with
       | Done k (ob, f), Done k' (oc, f') => k' = k /\ f' = f /\
           match ob, oc with
           | None, None => G = map Tree ts /\ exists e x, c = TS e /\ ts = [et e x]
           | Some bk', Some c' => exists ts', G = map Tree ts' /\ dcont (HLeaf bk') c' ts'
           | _, _ => False
           end
       | Unwound bk', Unwound (c', _) => exists ts', G = map Tree ts' /\ dcont (HLeaf bk') c' ts'
       | _, _ => False
       end).
Proof.
  intros n bk c ts cap o Hc Hcap E.
  inversion Hc as [|e x Ex|L l s ts' R1 R2]; subst; cbn [xbk_remove a_b_remove blen] in *.
  - rewrite ask_vtest in E.
    apply (ytests_seq _ xm (same_hash h) m n e x); trivial; [apply ytests_q|apply lent_in; now left|].
    destruct (vtest _ m n x) as [[n' []]|]; injection E as <-; apply safe_ret.
    + splits; trivial. eauto.
    + splits; trivial. exists [et e x]. split; [reflexivity|exact Hc].
    + exists [et e x]. split; [reflexivity|exact Hc].
  - assert (X : exists o1, c_list_remove_first (same_hash h) m n l = Ok o1 /\
      match o1 with
      | Unwound l' => o = Unwound (BCollision l')
      | Done n (l', removed) =>
         match l_len l' with
         | 0%nat => Ok (Unwound (BCollision l'))
         | 1%nat =>
             let! e := unwrap (l_first l') in
             Ok (Done n (Some (BSingle e), is_some removed))
         | _ => Ok (Done n (Some (BCollision l'), is_some removed))
         end = Ok o
      end).
    { apply cbind_inv in E. destruct E as [(l' & E & ->)|(k & [l' rm] & E & F)]; eexists; (split; [exact E|]); [reflexivity|exact F]. }
    destruct X as (o1 & E1 & Ho). clear E.
    assert (Els : l_len l = length s) by apply R1.
    eapply (safe_seq _ _ _ (2 * length s) 0 _ _ (map (@Tree C) ts) []);
      [apply (ylist_remove_first xm _ m ytests_q n L s _ l o1 R2 R1 E1)|perm| |lia].
    intros r G' H; rewrite app_nil_r. destruct o1 as [k [l' rm]|l']; destruct r as [k' [L' rm']|L']; try (destruct H; fail).
    2:{ subst o. destruct H as (s' & RL & Rl). apply safe_ret. now apply dc_list with (s := s'). }
    destruct H as (-> & s' & G1 & RL & Rl & Hf).
    seqq 0 0 G' (@nil own) (fun (_ : unit) G => G = G1 /\ is_some rm' = is_some rm).
    { destruct rm as [x|]; destruct rm' as [w|]; try (destruct Hf; fail).
      - destruct Hf as (_ & ->).
        apply (safe_frame tkids _ 0 0 _ [Tree (et w x)] G1 (fun _ G => G = [])); [apply et_drop|perm| |lia].
        intros [] G2 ->. exists G1. cbn [app is_some]. auto.
      - subst G'. apply safe_ret. auto. }
    intros [] G2 (-> & Er). rewrite app_nil_r. cbv beta.
    assert (Er' : @is_some hewh rm' = is_some rm) by exact Er. rewrite !Er'.
    assert (El' : l_len l' = length s') by apply Rl. rewrite El' in Ho. rewrite (drl_len _ _ _ RL).
    destruct s' as [|y [|z s2]]; cbn [length] in *.
    + injection Ho as <-. apply safe_ret. now apply dc_list with (s := []).
    + rewrite (lax_first _ _ Rl) in Ho. cbn [hd_error unwrap bind] in Ho. injection Ho as <-.
      destruct (drl_first L' y [] G1 RL) as (e & Ee & Le & First).
      apply (First _ _ 0 []). cbn [app]. eexists _, _. split; [exact Le|]. fold (et e y).
      seqq 0 0 G1 [Tree (et e y)] (fun (_ : unit) (G : list own) => G = []); [eapply drl_drop; eauto|].
      intros [] G ->. apply safe_ret. splits; trivial. exists [et e y]. split; [reflexivity|]. now constructor.
    + injection Ho as <-. apply safe_ret. splits; trivial. now apply dc_list with (s := y :: z :: s2).
Qed.

Lemma dn_is_empty_ok : forall (n : node) (c : C) (ts : list ptree) x, dcont n c ts -> hn_is_empty dbg n = Ok x -> tn_is_empty dbg c = Ret x.
Proof.
  intros n c ts x Hc H. destruct Hc as [s s' ts E1 E2 F|e y E|L l s ts R1 R2]; cbn [hn_is_empty tn_is_empty] in *.
  - unfold sa_size in *. rewrite E1. now injection H as <-.
  - now injection H as <-.
  - rewrite (drl_len _ _ _ R2). assert (El : l_len l = length s) by apply R1. rewrite El in H.
    inv H z Ez. rewrite Ez. now injection H as <-.
Qed.

Lemma dn_compress_ok : forall s s' ts n', dsim s s' ts -> length (sa_array s) = sa_size s ->
  hn_compress (HBranch s) = Ok n' ->
  safe 1 (tn_compress (TB s')) (map Tree ts) (fun c G => exists us, G = map Tree us /\ dcont n' c us).
Proof.
  intros s s' ts n' S Hl H. unfold hn_compress in H. unfold tn_compress.
  pose proof S as (E1 & E2 & F). assert (Es : sa_size s' = sa_size s) by (unfold sa_size; now rewrite E1). rewrite Es.
  assert (Stay : safe 1 (Ret (TB s')) (map Tree ts) (fun c G => exists us, G = map Tree us /\ dcont (HBranch s) c us)).
  { apply safe_ret. exists ts. split; trivial. now apply dsim_cont. }
  destruct (sa_size s) as [|[|k]] eqn:Ez; try (injection H as <-; exact Stay).
  destruct (sa_array s) as [|n0 [|? ?]] eqn:Ea; try discriminate.
  inversion F as [|? t ? m' Ht F']; subst. inversion F'; subst.
  unfold sa_first, sa_pop in *. rewrite Ea in H. rewrite E2. cbn [map hd_error unwrap bind lift pbind] in *.
  inversion Ht as [n1 p cc tts Hc]; subst. cbn [pa].
  eexists _, _. split; [apply lent_in; now left|]. intros _.
  destruct Hc as [s1 s1' ts1 E3 E4 F1|e x E|L l s1 ts1 R1 R2].
  - injection H as <-. exact Stay.
  - cbn [snd last_error] in H. injection H as <-. cbn [last_error removelast].
    seqq 1 0 [Tree (PT p (TS e) [et e x])] (@nil own)
      (fun r (G : list own) => exists a', r = (a', @TS K V e) /\ G = Held a' :: map Tree [et e x]).
    { apply (dmake_mut_ok (HLeaf (BSingle x))). now constructor. }
    intros r G (p' & -> & ->). cbn [app map].
    exists [], [Tree (et e x)]. splits; [perm|trivial|].
    set (u := PT p' (@TB K V {| sa_bitmap := sa_bitmap s'; sa_array := [] |}) []).
    seqq 0 0 [Tree u] [Tree (et e x)] (fun (_ : unit) (G : list own) => G = []).
    { apply (ddrop_empty (mkSA (sa_bitmap s') []) u); trivial. unfold u. repeat constructor. }
    intros [] G ->. apply safe_ret. exists [et e x]. split; trivial. now constructor.
  - injection H as <-. exact Stay.
Qed.

(** A branch whose bitmap counts its children. *)
Definition fair (n : node) : Prop := match n with HBranch s => length (sa_array s) = sa_size s | HLeaf _ => True end.
Fixpoint wfn (r : nat) (n : node) : Prop :=
  match n with
  | HLeaf _ => True
  | HBranch s => (exists al, sa_wf ubits s al) /\ match r with 0 => False | S r' => Forall (wfn r') (sa_array s) end
  end.

Lemma compress_fair : forall s n', length (sa_array s) = sa_size s -> hn_compress (HBranch s) = Ok n' -> fair n'.
Proof.
  intros s n' Hl H. unfold hn_compress in H. destruct (sa_size s) as [|[|k]] eqn:Ez; try (injection H as <-; cbn [fair]; congruence).
  destruct (sa_array s) as [|n0 [|? ?]] eqn:Ea; try discriminate.
  unfold sa_first, sa_pop in H. rewrite Ea in H. cbn [hd_error unwrap bind snd last_error] in H.
  destruct n0 as [s0|[e|l]]; injection H as <-; cbn [fair]; trivial; congruence.
Qed.

Variable b : N.
Hypothesis Hb : (0 < b)%N.
Hypothesis Hdeg : (2 ^ b <= ubits)%N.
Hypothesis Hub : (ubits <= 64)%N.
Notation degree := (2 ^ b)%N.
Notation arem := (a_hn_remove ubits dbg borrow qeq).

Lemma yn_remove : forall r n d nd c ts cap fuel o, fit r cap nd -> wfn r nd -> d + r = D b ->
  arem fuel n q h nd d degree = Ok o -> dcont nd c ts ->
  match o with Done _ (n', _) => fair n' | Unwound _ => True end /\
  safe (2 * r + 2 * cap) (xn_remove ubits dbg borrow qeq fuel n q h c d degree) (map Tree ts) (agree o).
Proof.
  induction r as [|r IH]; intros n d nd c ts cap fuel o T W Hd H Hc; (destruct fuel as [|fuel]; [discriminate|]);
    (destruct nd as [s|bk]; [try (destruct T; fail)|]).
  1, 3: cbn [a_hn_remove] in *.
  1, 2: assert (X : exists o1, a_b_remove borrow qeq n q h bk = Ok o1 /\
      o = match o1 with Unwound b' => Unwound (HLeaf b')
          | Done n (ob, removed) => Done n (match ob with None => new_empty_branch | Some b' => HLeaf b' end, removed) end);
    [apply cbind_inv in H; destruct H as [(b' & E & ->)|(k & [ob rm] & E & F)]; eexists; (split; [exact E|]); [reflexivity|now injection F as <-]|].
  1, 2: destruct X as (o1 & E1 & ->); clear H.
  1, 2: split; [destruct o1 as [k [[bk'|] f]|bk']; try exact I; reflexivity|].
  1, 2: assert (X := ybk_remove n bk c ts cap o1 Hc T E1).
  1, 2: eapply safe_mono; [|intros ? ? Z; exact Z|];
     [|enough (Y : safe (2 * cap) (let* r := xbk_remove xm n c in
          match r with
          | Unwound l => Ret (Unwound l)
          | Done n (Some c', removed) => Ret (Done n (c', removed))
          | Done n (None, removed) =>
              let* _ := tglue (fun _ => Fail) c in Ret (Done n (TB sa_new, removed))
          end) (map Tree ts) (agree match o1 with Unwound b' => Unwound (HLeaf b')
          | Done n (ob, removed) => Done n (match ob with None => new_empty_branch | Some b' => HLeaf b' end, removed) end));
      [inversion Hc; subst; exact Y|]]; [lia|].
  1, 2: eapply (safe_seq _ _ _ (2 * cap) 0 _ _ (map Tree ts) []); [exact X|perm| |lia];
    intros w G HG; rewrite app_nil_r; destruct o1 as [k [ob f]|bk']; destruct w as [k1 [oc f1]|[c1 fl]]; try (destruct HG; fail);
    [|apply safe_ret; exact HG]; destruct HG as (-> & -> & HG); destruct ob as [bk'|]; destruct oc as [c1|]; try (destruct HG; fail);
    [apply safe_ret; cbn [agree]; splits; trivial
    |destruct HG as (-> & e & x & -> & ->); cbn [tglue];
     seqq 0 0 [Tree (et e x)] (@nil own) (fun (_ : unit) (G : list own) => G = []); [apply et_drop|];
     intros [] G ->; apply safe_ret; cbn [agree]; splits; trivial; exists []; split; [reflexivity|]; apply dsim_cont, dsim_new].
  inversion Hc as [s0 s' ts' E1 E2 F| |]; subst.
  cbn [a_hn_remove xn_remove fit wfn] in *. destruct W as ((al & Hw) & W).
  pose proof (index_ok ubits dbg b Hb Hdeg Hub h d ltac:(lia)) as Ei.
  rewrite Ei in *. destruct (Nat.ltb_spec d (D b)); [|lia].
  cbn [bind unwrap lift pbind] in *.
  assert (S : dsim s s' ts) by now repeat split.
  pose proof (Hu0 ubits dbg b Hb Hdeg Hub) as HU.
  pose proof (idx_lt ubits dbg b Hb Hdeg Hub d h) as Hi.
  destruct (sa_access ubits dbg HU s al (idx b d h) Hw Hi)
    as [(l1 & l2 & -> & B & A & _ & Eg & _)|(l1 & c0 & l2 & -> & B & A & _ & (w & Eg & Hset) & _)];
    rewrite Eg in H; cbn [bind] in H; pose proof (dsim_get_mut _ _ _ _ _ _ _ S Eg) as Sg; cbv beta iota in Sg.
  { rewrite Sg. cbn [lift pbind]. injection H as <-. split; [cbn [fair]; eapply (wf_size ubits dbg b Hb Hdeg Hub); eauto|].
    apply safe_ret. cbn [agree]. splits; trivial. exists ts. split; [reflexivity|exact Hc]. }
  destruct Sg as (Hg & ts1 & t & ts2 & w' & -> & Ht & Eg' & Hwr & Hrm & Harr).
  rewrite Eg'. cbn [lift pbind].
  inversion Ht as [n1 p cc tts Hcc]; subst n1 t. cbn [pa].
  assert (TW : fit r cap c0 /\ wfn r c0).
  { destruct (Harr c0) as (a1 & a2 & E3 & _). rewrite E3 in T, W. rewrite Forall_forall in T, W. split; [apply T, in_elt|apply W, in_elt]. }
  destruct TW as (T0 & W0).
  assert (X : exists o1, arem fuel n q h c0 (Datatypes.S d) degree = Ok o1 /\
     match o1 with
     | Unwound c' => o = Unwound (HBranch (w c'))
     | Done n (c', removed) =>
         (let s' := w c' in
          let! empty := hn_is_empty dbg c' in
          match empty, removed with
          | _, false => Ok (Done n (HBranch s', false))
          | false, true => let! n' := hn_compress (HBranch s') in Ok (Done n (n', true))
          | true, true =>
              let! s2 := sa_remove ubits dbg s' (idx b d h) in
              let! n' := hn_compress (HBranch s2) in
              Ok (Done n (n', true))
          end) = Ok o
     end).
  { apply cbind_inv in H. destruct H as [(c' & E & ->)|(k & [c' rm] & E & F0)]; eexists; (split; [exact E|]); [reflexivity|exact F0]. }
  destruct X as (o1 & Eo & Ho). clear H.
  destruct (IH n (Datatypes.S d) c0 cc tts cap fuel o1 T0 W0 ltac:(lia) Eo Hcc) as (Fr & Sr).
  assert (Hl2 : forall c' s2, sa_remove ubits dbg (w c') (idx b d h) = Ok s2 -> length (sa_array s2) = sa_size s2).
  { intros c' s2 Es. destruct (sa_access ubits dbg HU _ _ (idx b d h) (Hset c') Hi)
        as [(k3 & k2 & E3 & _ & _ & _ & _ & Er & _)|(k3 & c2 & k2 & E3 & _ & _ & _ & _ & (s3 & Er & W3) & _)];
        rewrite Er in Es; injection Es as <-.
      - eapply (wf_size ubits dbg b Hb Hdeg Hub). apply Hset.
      - eapply (wf_size ubits dbg b Hb Hdeg Hub). exact W3. }
  assert (Hl1 : forall c', length (sa_array (w c')) = sa_size (w c')) by (intros c'; eapply (wf_size ubits dbg b Hb Hdeg Hub); apply Hset).
  split.
  { destruct o1 as [k [c' f']|c']; [|now subst o]. cbv zeta in Ho. inv Ho emp Ee. destruct f'.
    - destruct emp.
      + inv Ho s2 Es. inv Ho n2 En. injection Ho as <-. eapply compress_fair; [|exact En]. eauto.
      + inv Ho n2 En. injection Ho as <-. eapply compress_fair; [|exact En]. apply Hl1.
    - destruct emp; injection Ho as <-; cbn [fair]; apply Hl1. }
  seqq 1 (2 * r + 2 * cap + 1) [Tree (PT p cc tts)] (map Tree (ts1 ++ ts2))
      (fun r G => exists a', r = (a', cc) /\ G = Held a' :: map Tree tts).
  { eapply dmake_mut_ok; eauto. }
  intros r0 G' (p' & -> & ->).
  eapply (safe_seq _ _ _ (2 * r + 2 * cap) 1 _ _ (map Tree tts) (Held p' :: map Tree (ts1 ++ ts2))); [exact Sr|perm| |lia].
  intros r1 G1 HX. destruct o1 as [k [c' f']|c']; destruct r1 as [k1 [c1 f1]|[c1 fl]]; cbn [agree] in HX; try (destruct HX; fail).
  2:{ destruct HX as (ts' & -> & Hc1). subst o.
      exists ts', (map Tree (ts1 ++ ts2)). split; [perm|]. split; [eapply dcont_kids; eauto|].
      exists (map Tree (ts1 ++ PT p' c1 ts' :: ts2)). split; [perm|]. cbn [agree].
      exists (ts1 ++ PT p' c1 ts' :: ts2). split; [reflexivity|].
      apply dsim_cont. apply (Hwr c' (PT p' c1 ts')). now constructor. }
  destruct HX as (-> & -> & ts' & -> & Hc1).
  cbv zeta in Ho. inv Ho emp Ee. rewrite (dn_is_empty_ok _ _ _ _ Hc1 Ee). cbn [pbind].
  exists ts', (map Tree (ts1 ++ ts2)). split; [perm|]. split; [eapply dcont_kids; eauto|].
  set (u := PT p' c1 ts').
  assert (Hu' : dtree c' u) by now constructor.
  assert (Sw := Hwr c' u Hu'). cbn [pa u] in Sw.
  destruct f'.
  2:{ assert (Eo' : o = Done k (HBranch (w c'), false)) by (destruct emp; now injection Ho as <-). subst o.
      assert (Z : safe 1 (Ret (Done k (TB (w' p'), false))) (Tree u :: map Tree (ts1 ++ ts2)) (agree (Done k (HBranch (w c'), false)))).
      { exists (map Tree (ts1 ++ u :: ts2)). split; [perm|]. cbn [agree]. splits; trivial.
        exists (ts1 ++ u :: ts2). split; [reflexivity|]. now apply dsim_cont. }
      destruct emp; exact Z. }
  destruct emp.
  - inv Ho s2 Es. inv Ho n2 En. injection Ho as <-.
    destruct (Hrm c' p' s2 Es) as (s2' & Es' & S2). rewrite Es'. cbn [lift pbind].
    assert (Ec' : exists s3, c' = HBranch s3 /\ sa_array s3 = []).
    { destruct c' as [s3|[e3|l3]]; cbn [hn_is_empty fair] in Ee, Fr.
      - exists s3. split; [reflexivity|]. injection Ee as Ee. apply Nat.eqb_eq in Ee. rewrite Ee in Fr. now apply length_zero_iff_nil.
      - discriminate.
      - inv Ee z Ez. discriminate. }
    destruct Ec' as (s3 & -> & Ec').
    seqq 0 1 [Tree u] (map Tree (ts1 ++ ts2)) (fun (_ : unit) (G : list own) => G = []).
    { apply (ddrop_empty s3 u); trivial. }
    intros [] G ->. cbn [app].
    seqq 1 0 (map Tree (ts1 ++ ts2)) (@nil own) (fun c G => exists us, G = map Tree us /\ dcont n2 c us).
    { apply dn_compress_ok with (s := s2); eauto. }
    intros c2 G (us & -> & Hc2). rewrite app_nil_r. apply safe_ret. cbn [agree]. splits; trivial. exists us. auto.
  - inv Ho n2 En. injection Ho as <-.
    seqq 1 0 (map Tree (ts1 ++ u :: ts2)) (@nil own) (fun c G => exists us, G = map Tree us /\ dcont n2 c us).
    { apply dn_compress_ok with (s := w c'); trivial. }
    intros c2 G (us & -> & Hc2). rewrite app_nil_r. apply safe_ret. cbn [agree]. splits; trivial. exists us. auto.
Qed.
End Lookup.
End Lists.
