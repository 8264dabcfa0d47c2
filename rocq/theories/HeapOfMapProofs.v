(** * Maps whose values are collections: the proofs *)
From Coq Require Import List NArith Arith Lia Bool Permutation.
From Verif Require Import Base Spec SpecMap PermSolve HeapModel HeapProofs HeapSafe HeapShare HeapDrive HeapIn HeapInProofs HeapHost HeapHostProofs HeapOfMap.
Import ListNotations.
Local Open Scope prog_scope.

(** ** Finite maps, and the same with other values *)
Definition kv_map {K Y Z} (f : Y -> Z) (kv : K * Y) : K * Z := (fst kv, f (snd kv)).
Definition mv {K Y Z} (f : Y -> Z) (m : fmap K Y) : fmap K Z := map (kv_map f) m.

Definition mobs_map {K Y Z} (f : Y -> Z) (o : map_obs K Y) : map_obs K Z :=
  match o with
  | MoUnit => MoUnit
  | MoBool b => MoBool b
  | MoNat n => MoNat n
  | MoVal o => MoVal (option_map f o)
  | MoKV o => MoKV (option_map (kv_map f) o)
  end.
Definition mop_args {K Y Q} (o : map_op K Y Q) : list Y :=
  match o with MInsert _ x | MInsertMut _ x => [x] | _ => [] end.
Definition mop_map {K Y Z Q} (f : Y -> Z) (o : map_op K Y Q) : map_op K Z Q :=
  match o with
  | MInsert k x => MInsert k (f x)
  | MInsertMut k x => MInsertMut k (f x)
  | MRemove q => MRemove q
  | MRemoveMut q => MRemoveMut q
  | MGetMut _ _ => MSize
  | MGet q => MGet q
  | MGetKeyValue q => MGetKeyValue q
  | MContains q => MContains q
  | MSize => MSize
  | MIsEmpty => MIsEmpty
  | MClone => MClone
  end.
Definition no_gm {K Y Q} (o : map_op K Y Q) : Prop := match o with MGetMut _ _ => False | _ => True end.

Section Fm.
Context {K Q Y Z : Type} (keq : K -> K -> bool) (borrow : K -> Q) (qeq : Q -> Q -> bool) (f : Y -> Z).

Lemma filter_mv : forall p (m : fmap K Y),
  filter (fun kv => p (fst kv)) (mv f m) = mv f (filter (fun kv => p (fst kv)) m).
Proof.
  intros p m. unfold mv. induction m as [|[k y] m IH]; cbn; [trivial|]. destruct (p k); cbn; now rewrite IH.
Qed.
Lemma find_mv : forall q (m : fmap K Y),
  fm_find borrow qeq q (mv f m) = option_map (kv_map f) (fm_find borrow qeq q m).
Proof.
  intros q m. unfold fm_find, mv. induction m as [|[k y] m IH]; cbn; [trivial|]. now destruct (qeq (borrow k) q).
Qed.
Lemma insert_mv : forall k y (m : fmap K Y), fm_insert keq k (f y) (mv f m) = mv f (fm_insert keq k y m).
Proof. intros k y m. unfold fm_insert. cbn. f_equal. exact (filter_mv (fun x => negb (keq x k)) m). Qed.
Lemma remove_mv : forall q (m : fmap K Y), fm_remove borrow qeq q (mv f m) = mv f (fm_remove borrow qeq q m).
Proof. intros q m. exact (filter_mv (fun x => negb (qeq (borrow x) q)) m). Qed.
Lemma modify_mv : forall q g h (m : fmap K Y),
  (forall kv, In kv m -> qeq (borrow (fst kv)) q = true -> f (g (snd kv)) = h (f (snd kv))) ->
  fm_modify borrow qeq q h (mv f m) = mv f (fm_modify borrow qeq q g m).
Proof.
  intros q g h m H. unfold fm_modify, mv. rewrite !map_map. apply map_ext_in. intros [k y] Hi. cbn.
  destruct (qeq (borrow k) q) eqn:E; [|trivial]. unfold kv_map. cbn. f_equal. symmetry. exact (H _ Hi E).
Qed.
Lemma keys_mv : forall m : fmap K Y, map fst (mv f m) = map fst m.
Proof. intros m. unfold mv. rewrite map_map. now apply map_ext. Qed.
Lemma length_mv : forall m : fmap K Y, length (mv f m) = length m.
Proof. intros m. apply map_length. Qed.
Lemma is_nil_mv : forall m : fmap K Y, is_nil (mv f m) = is_nil m.
Proof. now intros []. Qed.

Lemma find_only : forall q (m : fmap K Y) kv, key_laws keq borrow qeq -> unique_keys keq m -> In kv m ->
  qeq (borrow (fst kv)) q = true -> fm_find borrow qeq q m = Some kv.
Proof.
  intros q m kv L U Hi Hq. unfold fm_find. induction U as [|x m F U IH]; [easy|]. cbn [find].
  destruct Hi as [->|Hi]; [now rewrite Hq|]. destruct (qeq (borrow (fst x)) q) eqn:Ex; [|now apply IH].
  rewrite Forall_forall in F. specialize (F _ Hi). rewrite (kl_borrow _ _ _ L) in F.
  rewrite (kl_trans _ _ _ L _ q _ Ex (kl_sym _ _ _ L _ _ Hq)) in F. discriminate.
Qed.
End Fm.

(** ** A map that holds collections

    [mrep]: what the map whose values are opaque stands for; [ic], [rc], [gc]: what it may
    allocate to insert, remove and in [get_mut], depending on the keys there are. *)
Section MapOf.
Context {B B' C E V Op Out : Type} (I : impl C E Op Out) (S : spec V Op Out).
Context (rep : E -> V -> list (@own C) -> Prop) (ncost : nat) (cost : Op -> V -> nat).
Hypothesis by_I : implements_by I S rep ncost cost.
Notation X := (E * V)%type.
Context (elem : B -> option E) (bkids : B -> list addr).
Context (erase : B' -> B) (elem' : B' -> option X) (bkids' : B' -> list addr).
Hypothesis elem_erase : forall b, elem (erase b) = option_map fst (elem' b).
Hypothesis kids_erase : forall b, bkids (erase b) = bkids' b.
Hypothesis elem_kids : forall b y, elem' b = Some y -> bkids' b = [].
Notation D := (dcell B C).
Notation kids := (dkids I elem bkids).
Notation safe := (safe kids).
Notation gsafe := (HeapSafe.safe bkids').
Notation exts := (Forall2 (exto rep erase elem')).
Notation loose := (loose (B := B) rep).
Notation msafe := (msafe I rep elem bkids erase elem').
Notation vrun := (vrun S).
Notation irun_cost := (irun_cost S cost).
Notation calls_ok := (calls_ok I S rep ncost cost by_I elem bkids erase elem' bkids' elem_erase kids_erase elem_kids).

Context {K Q M : Type} (keq : K -> K -> bool) (borrow : K -> Q) (qeq : Q -> Q -> bool).
Context (step : map_op K E Q -> M -> prog B (M * map_obs K E)) (gm : M -> Q -> list Op -> prog D (M * option (list Out))).
Context (xstep : map_op K X Q -> M -> prog B' (M * map_obs K X)).
Context (mrep : M -> fmap K X -> list (@own B') -> Prop).
Context (ic : K -> list K -> nat) (rc gc : Q -> list K -> nat).
Notation mspec := (map_spec keq borrow qeq).
Notation found := (fm_find borrow qeq).

Definition mc {Y} (o : map_op K Y Q) (ks : list K) : nat :=
  match o with
  | MInsert k _ | MInsertMut k _ => ic k ks
  | MRemove q | MRemoveMut q => rc q ks
  | MGetMut q _ => gc q ks
  | _ => 0
  end.

Hypothesis step_tr : forall o m, no_gm o ->
  traces erase elem' (fun x' x _ => x = (fst x', mobs_map fst (snd x'))) (mop_args o) (xstep o m) (step (mop_map fst o) m).
Hypothesis step_safe : forall o m s G, mrep m s G ->
  gsafe (mc o (map fst s)) (xstep o m) G (fun r G' => snd r = snd (mspec o s) /\ mrep (fst r) (fst (mspec o s)) G').
Hypothesis gm_safe : forall q l m s G, mrep m s G -> opt_may S l (option_map (fun kv => snd (snd kv)) (found q s)) ->
  msafe (gc q (map fst s) + opt_cost S cost l (option_map (fun kv => snd (snd kv)) (found q s))) (gm m q l) G
    (fun r G' => snd r = option_map (fun kv => snd (vrun l (snd (snd kv)))) (found q s) /\
       exists g, (forall kv, found q s = Some kv -> snd (g (snd kv)) = fst (vrun l (snd (snd kv)))) /\
         mrep (fst r) (fm_modify borrow qeq q g s) G').
Hypothesis all_held : forall m s G kv, mrep m s G -> In kv s -> holds elem' (snd kv) G.
Hypothesis only_one : forall m s G q kv, mrep m s G -> In kv s -> qeq (borrow (fst kv)) q = true -> found q s = Some kv.

Definition wmrep (m : M) (s : fmap K V) (G : list (@own D)) : Prop :=
  exists l G0, mrep m l G0 /\ exts G0 G /\ s = mv snd l.

Definition wm_cost (o : nmop K Q Op) (s : fmap K V) : nat :=
  let at_ q l := opt_cost S cost l (option_map snd (found q s)) in
  match o with
  | NMInsert k l | NMInsertMut k l => ncost + irun_cost l (s_new S) + ic k (map fst s)
  | NMCopy q k l => at_ q l + ic k (map fst s)
  | NMUpdate q l => gc q (map fst s) + at_ q l
  | NMRemove q | NMRemoveMut q => rc q (map fst s)
  | NMGet q l | NMGetKeyValue q l => at_ q l
  | NMContains _ | NMSize | NMIsEmpty => 0
  end.

Notation seq n1 n2 G1 F := (safe_seq kids _ _ n1 n2 _ _ G1 F).
Ltac ap := rewrite app_nil_r; apply Permutation_refl.

Lemma step_ok : forall o m l G0 G W, no_gm o -> mrep m l G0 -> exts G0 G -> loose (mop_args o) W ->
  safe (mc o (map fst l)) (calls I elem (step (mop_map fst o) m) (map fst (mop_args o))) (G ++ W)
    (fun r G' => exists G1, snd r = mobs_map fst (snd (mspec o l)) /\ mrep (fst r) (fst (mspec o l)) G1 /\ exts G1 G').
Proof.
  intros o m l G0 G W Ho R Ex Lo.
  eapply safe_mono; [apply le_n| |exact (calls_ok _ _ _ _ _ _ _ _ _ (step_tr o m Ho) (step_safe o m l G0 R) Ex Lo)].
  cbn beta. intros r G' (r' & G1 & -> & (E1 & R1) & Ex1). exists G1. cbn [fst snd]. now rewrite E1.
Qed.

(** Without arguments *)
Lemma step0_ok : forall o m l G0 G, no_gm o -> mop_args o = [] -> mrep m l G0 -> exts G0 G ->
  safe (mc o (map fst l)) (calls I elem (step (mop_map fst o) m) []) G
    (fun r G' => exists G1, snd r = mobs_map fst (snd (mspec o l)) /\ mrep (fst r) (fst (mspec o l)) G1 /\ exts G1 G').
Proof.
  intros o m l G0 G Ho Ha R Ex. pose proof (step_ok o m l G0 G [] Ho R Ex) as H. rewrite Ha, app_nil_r in H.
  apply H. constructor.
Qed.

(** An element that was made or copied is inserted. *)
Lemma insert_ok : forall (ins : K -> X -> map_op K X Q) m l G0 G k e x us,
  (forall k y, ins k y = MInsert k y) \/ (forall k y, ins k y = MInsertMut k y) ->
  mrep m l G0 -> exts G0 G -> erep rep (@DI B C) e x us ->
  safe (ic k (map fst l)) (calls I elem (step (mop_map fst (ins k (e, x))) m) [e]) (G ++ map Tree us)
    (fun r G' => exists G1, mrep (fst r) (fm_insert keq k (e, x) l) G1 /\ exts G1 G').
Proof.
  intros ins m l G0 G k e x us Hi R Ex Er.
  assert (Ho : no_gm (ins k (e, x)) /\ mop_args (ins k (e, x)) = [(e, x)] /\ mc (ins k (e, x)) (map fst l) = ic k (map fst l) /\
    fst (mspec (ins k (e, x)) l) = fm_insert keq k (e, x) l) by (destruct Hi as [H|H]; rewrite H; cbn; auto).
  destruct Ho as (H1 & H2 & H3 & H4).
  pose proof (step_ok (ins k (e, x)) m l G0 G (map Tree us ++ []) H1 R Ex) as H. rewrite H2, H3, H4, app_nil_r in H.
  eapply safe_mono; [apply le_n| |apply H].
  - cbn beta. intros r G' (G1 & _ & R1 & Ex1). eauto.
  - rewrite <- (app_nil_r (map Tree us)). constructor; [exact Er|constructor].
Qed.

Lemma found_val : forall q l, option_map snd (found q (mv snd l)) = option_map (fun kv : K * X => snd (snd kv)) (found q l).
Proof using. intros q l. rewrite find_mv. now destruct (found q l). Qed.

Lemma found_in : forall q (l : fmap K X) kv, found q l = Some kv -> In kv l.
Proof using. intros q l kv H. eapply find_some, H. Qed.

Lemma wm_step_ok : forall o m s G, wmrep m s G -> wm_pre S borrow qeq o s ->
  safe (wm_cost o s) (wm_step I elem step gm o m) G
    (fun r G' => snd r = snd (wm_val S keq borrow qeq o s) /\ wmrep (fst r) (fst (wm_val S keq borrow qeq o s)) G').
Proof.
  intros o m s G (l & G0 & R & Ex & ->) M0.
  assert (new : forall k q (ins : K -> X -> map_op K X Q) (ins' : K -> E -> map_op K E Q),
    (forall k y, ins k y = MInsert k y) \/ (forall k y, ins k y = MInsertMut k y) ->
    (forall k y, mop_map fst (ins k y) = ins' k (fst y)) -> vmay S q (s_new S) ->
    safe (ncost + irun_cost q (s_new S) + ic k (map fst l))
      (let* (e, xs) := make I DI d_isI q in let* (m, _) := calls I elem (step (ins' k e) m) [e] in Ret (m, NMOut (K := K) (NAll [xs]))) G
      (fun r G' => snd r = NMOut (NAll [snd (vrun q (s_new S))]) /\
         wmrep (fst r) (fm_insert keq k (fst (vrun q (s_new S))) (mv snd l)) G')).
  { intros k q ins ins' Hi Hm Mq.
    eapply (seq (ncost + irun_cost q (s_new S)) (ic k (map fst l)) [] G);
      [apply (make_ok I S rep ncost cost by_I (@DI B C) d_isI kids (fun _ => eq_refl) (fun _ => eq_refl) q Mq)|apply Permutation_refl| |lia].
    intros [e xs] G' (us & -> & Exs & Er). cbn [fst snd] in *. subst xs.
    eapply (seq (ic k (map fst l)) 0 (G ++ map Tree us) []); [|rewrite app_nil_r; apply Permutation_app_comm| |lia].
    - change e with (fst (e, fst (vrun q (s_new S)))) at 1. rewrite <- Hm. exact (insert_ok ins m l G0 G k e _ us Hi R Ex Er).
    - cbn beta. intros [m1 o1] G' (G1 & R1 & Ex1). cbn [fst snd] in *. rewrite app_nil_r. apply safe_ret. cbn [fst snd].
      split; [reflexivity|]. eexists _, G1. splits; [exact R1|exact Ex1|]. exact (insert_mv keq snd k (e, fst (vrun q (s_new S))) l). }
  destruct o as [k q|k q|q k p|q p|q|q|q p|q p|q| |]; cbn [wm_step wm_val wm_cost wm_pre fst snd] in *;
    rewrite ?found_val, ?keys_mv in *.
  - apply (new k q MInsert MInsert); auto.
  - apply (new k q MInsertMut MInsertMut); auto.
  - rewrite find_mv.
    eapply (seq 0 _ G []); [exact (step0_ok (MGet q) m l G0 G Logic.I eq_refl R Ex)|ap| |apply le_n].
    cbn beta. intros [m1 o1] G' (G1 & E1 & R1 & Ex1). cbn [fst snd map_spec mobs_map] in *. subst o1. rewrite app_nil_r.
    destruct (found q l) as [[k0 [e x]]|] eqn:Ef; cbn [option_map opt_may opt_cost fst snd kv_map] in *.
    + destruct (holds_lent rep erase elem' _ _ _ (all_held _ _ _ _ R1 (found_in _ _ _ Ef)) Ex1) as (us & Er & Le). cbn [fst snd] in *.
      eapply (seq 0 _ G' []); [exact (clone_elem I S rep ncost cost by_I (@DI B C) d_isI kids (fun _ => eq_refl) (fun _ => eq_refl) _ _ _ G' Er Le)|ap| |apply le_n].
      intros e' G2 (G3 & -> & R3). rewrite app_nil_r.
      eapply (seq (irun_cost p x) (ic k (map fst l)) (map (up DI) G3) G');
        [exact (work_ok I S rep ncost cost by_I (@DI B C) d_isI kids (fun _ => eq_refl) (fun _ => eq_refl) p e' x G3 R3 M0)|apply Permutation_app_comm| |lia].
      intros [e3 xs] G2 (G4 & -> & Exs & R4). cbn [fst snd] in *. subst xs.
      destruct (rep_erep I S rep ncost cost by_I (@DI B C) _ _ _ R4) as (us4 & -> & Er4).
      eapply (seq (ic k (map fst l)) 0 (G' ++ map Tree us4) []);
        [exact (insert_ok MInsertMut m1 l G1 G' k e3 _ us4 (or_intror (fun _ _ => eq_refl)) R1 Ex1 Er4)|rewrite app_nil_r; apply Permutation_app_comm| |lia].
      cbn beta. intros [m2 o2] G2 (G5 & R5 & Ex5). cbn [fst snd] in *. rewrite app_nil_r. apply safe_ret. cbn [fst snd].
      split; [reflexivity|]. eexists _, G5. splits; [exact R5|exact Ex5|]. exact (insert_mv keq snd k (e3, fst (vrun p x)) l).
    + apply safe_ret. cbn [fst snd]. split; [reflexivity|]. exists l, G1. auto.
  - eapply (seq _ 0 G []); [exact (gm_safe q p m l G0 R M0 G Ex)|ap| |rewrite Nat.add_0_r; apply le_n].
    intros [m1 r1] G' (G1 & (E1 & g & Hg & R1) & Ex1). cbn [fst snd] in *. subst r1. rewrite app_nil_r. apply safe_ret. cbn [fst snd].
    rewrite find_mv. split; [now destruct (found q l)|]. eexists _, G1. splits; [exact R1|exact Ex1|].
    apply modify_mv. intros kv Hi Hq. apply Hg. eapply only_one; eassumption.
  - eapply (seq _ 0 G []); [exact (step0_ok (MRemove q) m l G0 G Logic.I eq_refl R Ex)|ap| |rewrite Nat.add_0_r; apply le_n].
    cbn beta. intros [m1 o1] G' (G1 & E1 & R1 & Ex1). cbn [fst snd map_spec mobs_map] in *. rewrite app_nil_r. apply safe_ret. cbn [fst snd].
    split; [reflexivity|]. eexists _, G1. splits; [exact R1|exact Ex1|]. apply remove_mv.
  - eapply (seq _ 0 G []); [exact (step0_ok (MRemoveMut q) m l G0 G Logic.I eq_refl R Ex)|ap| |rewrite Nat.add_0_r; apply le_n].
    cbn beta. intros [m1 o1] G' (G1 & E1 & R1 & Ex1). cbn [fst snd map_spec mobs_map] in *. subst o1. rewrite app_nil_r. apply safe_ret. cbn [fst snd].
    rewrite find_mv. split; [now destruct (found q l)|]. eexists _, G1. splits; [exact R1|exact Ex1|]. apply remove_mv.
  - rewrite find_mv. eapply (seq 0 _ G []); [exact (step0_ok (MGet q) m l G0 G Logic.I eq_refl R Ex)|ap| |apply le_n].
    cbn beta. intros [m1 o1] G' (G1 & E1 & R1 & Ex1). cbn [fst snd map_spec mobs_map] in *. subst o1. rewrite app_nil_r.
    eapply (seq _ 0 G' []).
    + apply (peek_ok I S rep ncost cost by_I elem bkids erase elem' p (option_map snd (found q l)) G1 G').
      * intros y Ey. destruct (found q l) as [kv|] eqn:Ef; [|easy]. injection Ey as <-.
        eapply all_held; [exact R1|]. eapply found_in, Ef.
      * exact Ex1.
      * now destruct (found q l).
    + ap.
    + intros r G2 (-> & ->). rewrite app_nil_r. apply safe_ret. cbn [fst snd]. split; [now destruct (found q l)|]. exists l, G1. auto.
    + destruct (found q l); cbn; lia.
  - rewrite find_mv. eapply (seq 0 _ G []); [exact (step0_ok (MGetKeyValue q) m l G0 G Logic.I eq_refl R Ex)|ap| |apply le_n].
    cbn beta. intros [m1 o1] G' (G1 & E1 & R1 & Ex1). cbn [fst snd map_spec mobs_map] in *. subst o1. rewrite app_nil_r.
    destruct (found q l) as [[k0 y]|] eqn:Ef; cbn [option_map opt_may opt_cost fst snd kv_map] in *.
    + eapply (seq _ 0 G' []).
      * apply (peek_ok I S rep ncost cost by_I elem bkids erase elem' p (Some y) G1 G'); trivial.
        intros y0 Ey. injection Ey as <-. apply (all_held _ _ _ (k0, y) R1). eapply found_in, Ef.
      * ap.
      * intros r G2 (-> & ->). cbn [option_map]. rewrite app_nil_r. apply safe_ret. cbn [fst snd]. split; [reflexivity|]. exists l, G1. auto.
      * cbn [option_map opt_cost]. lia.
    + apply safe_ret. cbn [fst snd]. split; [reflexivity|]. exists l, G1. auto.
  - rewrite find_mv. eapply (seq 0 0 G []); [exact (step0_ok (MContains q) m l G0 G Logic.I eq_refl R Ex)|ap| |apply le_n].
    cbn beta. intros [m1 o1] G' (G1 & E1 & R1 & Ex1). cbn [fst snd map_spec mobs_map] in *. subst o1. rewrite app_nil_r. apply safe_ret. cbn [fst snd].
    split; [now destruct (found q l)|]. exists l, G1. auto.
  - eapply (seq 0 0 G []); [exact (step0_ok MSize m l G0 G Logic.I eq_refl R Ex)|ap| |apply le_n].
    cbn beta. intros [m1 o1] G' (G1 & E1 & R1 & Ex1). cbn [fst snd map_spec mobs_map] in *. subst o1. rewrite app_nil_r. apply safe_ret. cbn [fst snd].
    rewrite length_mv. split; [reflexivity|]. exists l, G1. auto.
  - eapply (seq 0 0 G []); [exact (step0_ok MIsEmpty m l G0 G Logic.I eq_refl R Ex)|ap| |apply le_n].
    cbn beta. intros [m1 o1] G' (G1 & E1 & R1 & Ex1). cbn [fst snd map_spec mobs_map] in *. subst o1. rewrite app_nil_r. apply safe_ret. cbn [fst snd].
    rewrite is_nil_mv. split; [reflexivity|]. exists l, G1. auto.
Qed.
End MapOf.
