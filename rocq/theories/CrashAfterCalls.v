(** * How many calls to user code a call on a damaged HashTrieMap makes

    Given at least [B] calls that return, a call ends in the way it ends with any larger number: no
    user call is left to unwind. *)
From Coq Require Import List NArith Arith Bool Lia Permutation.
From Verif Require Import Base Spec SpecMap SpecOrd Sim ListModel ListProofs SparseModel SparseProofs HashModel HashProofs HashHist
  HashExtraProofs HashIter CrashModel CrashProofs CrashAfterModel CrashAfter.
Import ListNotations.

Definition quiet {S A} (run : nat -> res (crash S A)) (B : nat) : Prop :=
  forall n o, B <= n -> run n = Ok o ->
    match o with
    | Done k a => n <= k + B /\ forall j, run (j + n) = Ok (Done (j + k) a)
    | Unwound s => forall j, run (j + n) = Ok (Unwound s)
    end.

Section Q.
Context {S A : Type}.
Lemma quiet_le : forall (run : nat -> res (crash S A)) B B', quiet run B -> B <= B' -> quiet run B'.
Proof.
  intros run B B' H L n o Hn E. specialize (H n o ltac:(lia) E). destruct o; [|exact H]. destruct H as (H & J). split; [lia|exact J].
Qed.
Lemma quiet_ret : forall a : A, quiet (fun n => Ok (@Done S A n a)) 0.
Proof. intros a n o _ E. injection E as <-. split; [lia|reflexivity]. Qed.
Lemma quiet_own : forall s : S, quiet (fun _ => Ok (@Unwound S A s)) 0.
Proof. intros s n o _ E. injection E as <-. reflexivity. Qed.
Lemma quiet_call : forall s (f : nat -> res (crash S A)) B, quiet f B -> quiet (fun n => ucall n s f) (Datatypes.S B).
Proof.
  intros s f B H [|n] o Hn E; [lia|]. cbn [ucall] in E. specialize (H n o ltac:(lia) E).
  destruct o; [destruct H as (H & J); split; [lia|]|]; intros j; rewrite Nat.add_succ_r; cbn [ucall]; auto.
Qed.
Lemma quiet_ask : forall T (pre p : T -> bool) s e (f : nat -> bool -> res (crash S A)) B,
  (forall x, quiet (fun n => f n x) B) -> quiet (fun n => ask pre p n s e f) (Datatypes.S B).
Proof.
  intros T pre p s e f B H. unfold ask. destruct (pre e); [now apply quiet_call|]. apply quiet_le with (B := B); auto.
Qed.
Lemma quiet_res : forall X (y : res X) (f : nat -> X -> res (crash S A)) B,
  (forall x, y = Ok x -> quiet (fun n => f n x) B) -> quiet (fun n => bind y (f n)) B.
Proof.
  intros X y f B H n o Hn E. destruct y as [x| |]; cbn [bind] in *; try discriminate. exact (H x eq_refl n o Hn E).
Qed.
Lemma quiet_bad : forall (run : nat -> res (crash S A)) B, (forall n o, run n <> Ok o) -> quiet run B.
Proof. intros run B H n o _ E. now apply H in E. Qed.
End Q.

Lemma quiet_bind : forall S S' A A' (m : nat -> res (crash S A)) (k : S -> S') (f : nat -> A -> res (crash S' A')) B1 B2,
  quiet m B1 -> (forall n c a, m n = Ok (Done c a) -> quiet (fun n => f n a) B2) ->
  quiet (fun n => cbind (m n) k f) (B1 + B2).
Proof.
  intros S S' A A' m k f B1 B2 H1 H2 n o Hn E. unfold cbind in *. destruct (m n) as [[c a|s]| |] eqn:Em; cbn [bind] in E; try discriminate.
  - pose proof (H1 n _ ltac:(lia) Em) as (L & J). pose proof (H2 n c a Em c o ltac:(lia) E) as X.
    destruct o as [c' a'|s'].
    + destruct X as (L' & J'). split; [lia|]. intros j. rewrite J. cbn [bind]. apply J'.
    + intros j. rewrite J. cbn [bind]. apply X.
  - injection E as <-. pose proof (H1 n _ ltac:(lia) Em) as J. intros j. rewrite J. reflexivity.
Qed.

(** With that many calls, a call that unwinds does so by itself. *)
Lemma cends_quiet : forall S A (run : nat -> res (crash S A)) Pd Pu Po B, cends run Pd Pu Po -> quiet run B ->
  forall n s, B <= n -> run n = Ok (Unwound s) -> Po s.
Proof.
  intros S A run Pd Pu Po B (c & r & Hr & H) Q n s Hn E. pose proof (Q n _ Hn E) as J. cbv beta iota in J.
  specialize (J (c - n)). destruct (H (c - n + n)) as (Hc & _). specialize (Hc ltac:(lia)). rewrite Hc in J.
  destruct r as [a|s']; [discriminate|]. now injection J as <-.
Qed.

Section Lists.
Context {T : Type}.
Variables pre p : T -> bool.
Lemma quiet_find : forall l, quiet (fun n => c_find pre p n l) (length l).
Proof.
  induction l as [|e l IH]; cbn [c_find length]; [apply quiet_ret|].
  apply quiet_ask. intros []; [|exact IH]. eapply quiet_le; [apply quiet_ret|lia].
Qed.
Lemma quiet_loop : forall f before l, quiet (fun n => c_lrf_loop pre p f n before l) f.
Proof.
  induction f as [|f IH]; intros before l; cbn [c_lrf_loop]; [now apply quiet_bad|].
  destruct (l_is_empty l); [eapply quiet_le; [apply quiet_ret|lia]|].
  apply quiet_res. intros e _. apply (quiet_res (S := rlist T) _ _ (fun n '(remaining', _) =>
        ask pre p n remaining' e (fun n b =>
        if b : bool then Ok (Done n (remaining', before, Some e))
        else c_lrf_loop pre p f n (e :: before) remaining'))). intros [l' x] _.
  apply quiet_ask. intros []; [|apply IH]. eapply quiet_le; [apply quiet_ret|lia].
Qed.
Lemma quiet_remove_first : forall l, quiet (fun n => c_list_remove_first pre p n l) (S (l_len l)).
Proof.
  intros l. eapply quiet_le with (B := S (l_len l) + 0); [|lia]. unfold c_list_remove_first.
  apply quiet_bind; [apply quiet_loop|]. intros _ _ [[r b] x] _. apply quiet_ret.
Qed.
End Lists.

Section Nodes.
Variable ubits : N.
Variable dbg : bool.
Context {K V Q : Type}.
Variable keq : K -> K -> bool.
Variable borrow : K -> Q.
Variable qeq : Q -> Q -> bool.
Notation entry := (hentry K V).
Notation bucket := (hbucket K V).
Notation node := (hnode K V).

(** Buckets at most [r] levels down, with at most [cap] entries. *)
Definition btame (cap : nat) (bk : bucket) : Prop :=
  1 <= cap /\ match bk with BSingle _ => True | BCollision l => exists s, l_lax l s /\ length s <= cap end.
Fixpoint tame (r cap : nat) (n : node) : Prop :=
  match n with
  | HLeaf bk => btame cap bk
  | HBranch s => match r with 0 => False | S r' => Forall (tame r' cap) (sa_array s) end
  end.

Lemma quiet_b_find : forall h m bk cap, btame cap bk -> quiet (fun n => c_b_find n h m bk) cap.
Proof.
  intros h m [e|l] cap (L & T); unfold c_b_find.
  - eapply quiet_le; [apply quiet_ask; intros x; apply quiet_ret|exact L].
  - destruct T as (s & Hl & Hs). apply quiet_res. intros es E. rewrite (lax_elems _ _ Hl) in E. injection E as <-.
    eapply quiet_le; [apply quiet_find|exact Hs].
Qed.
Lemma quiet_b_get_mut : forall sh q h f bk cap, btame cap bk -> quiet (fun n => c_b_get_mut borrow qeq n sh q h f bk) (cap + 3).
Proof.
  intros sh q h f [e|l] cap (L & T); unfold c_b_get_mut; cbv zeta.
  - eapply quiet_le; [apply (quiet_ask _ _ _ _ _ _ 2)|lia]. intros [].
    + destruct sh; [repeat apply quiet_call; apply quiet_ret|eapply quiet_le; [apply quiet_ret|lia]].
    + eapply quiet_le; [apply quiet_ret|lia].
  - destruct T as (s & (_ & Hl) & Hs). eapply quiet_le; [eapply (quiet_bind _ _ _ _ _ _ _ _ 2); [apply quiet_remove_first|]|unfold l_len; lia].
    intros _ _ [l' [x|]] _.
    + destruct sh; [repeat apply quiet_call; apply quiet_ret|eapply quiet_le; [apply quiet_ret|lia]].
    + eapply quiet_le; [apply quiet_ret|lia].
Qed.
Lemma quiet_b_insert : forall e bk cap, btame cap bk -> quiet (fun n => c_b_insert keq n e bk) (cap + 1).
Proof.
  intros e [o|l] cap (L & T); unfold c_b_insert; cbv zeta.
  - eapply quiet_le; [apply (quiet_ask _ _ _ _ _ _ 0)|lia]. intros []; apply quiet_ret.
  - destruct T as (s & (_ & Hl) & Hs). eapply quiet_le; [eapply (quiet_bind _ _ _ _ _ _ _ _ 0); [apply quiet_remove_first|]|unfold l_len; lia].
    intros _ _ [l' x] _. apply quiet_ret.
Qed.
Lemma quiet_b_remove : forall q h bk cap, btame cap bk -> quiet (fun n => a_b_remove borrow qeq n q h bk) (cap + 1).
Proof.
  intros q h [o|l] cap (L & T); unfold a_b_remove; cbv zeta.
  - eapply quiet_le; [apply (quiet_ask _ _ _ _ _ _ 0)|lia]. intros []; apply quiet_ret.
  - destruct T as (s & (_ & Hl) & Hs). eapply quiet_le; [eapply (quiet_bind _ _ _ _ _ _ _ _ 0); [apply quiet_remove_first|]|unfold l_len; lia].
    intros _ _ [l' x] _. destruct (l_len l') as [|[|k]]; [apply quiet_own| |apply quiet_ret].
    apply quiet_res. intros e _. apply quiet_ret.
Qed.

Lemma quiet_get : forall q h fuel r cap nd d degree, tame r cap nd ->
  quiet (fun n => c_hn_get ubits dbg borrow qeq fuel n q h nd d degree) cap.
Proof.
  induction fuel as [|fuel IH]; intros r cap nd d degree T; cbn [c_hn_get]; [now apply quiet_bad|]. destruct nd as [s|bk].
  - apply quiet_res. intros oi _. apply quiet_res. intros i _. apply quiet_res. intros g Eg. destruct g as [c|].
    + destruct r as [|r]; [destruct T|]. cbn [tame] in T. apply (IH r). rewrite Forall_forall in T. apply T.
      unfold sa_get in Eg. destruct (debug_assert _ _); cbn [bind] in Eg; try discriminate.
      destruct (map_index _ _ _ _) as [[j|]| |]; cbn [bind] in Eg; try discriminate.
      destruct (nth_error (sa_array s) j) eqn:En; cbn in Eg; try discriminate. injection Eg as <-. eapply nth_error_In; eauto.
    + eapply quiet_le; [apply quiet_ret|lia].
  - apply quiet_b_find. destruct r; exact T.
Qed.

Lemma get_mut_in : forall (s : sarr node) i c w, sa_get_mut ubits dbg s i = Ok (Some (c, w)) -> In c (sa_array s).
Proof.
  intros s i c w Eg. unfold sa_get_mut in Eg. destruct (debug_assert _ _); cbn [bind] in Eg; try discriminate.
  destruct (map_index _ _ _ _) as [[j|]| |]; cbn [bind] in Eg; try discriminate.
  destruct (nth_error (sa_array s) j) eqn:En; cbn in Eg; try discriminate. injection Eg as <- <-. eapply nth_error_In; eauto.
Qed.

Lemma quiet_get_mut : forall sh q h f fuel r cap nd d degree, tame r cap nd ->
  quiet (fun n => c_hn_get_mut ubits dbg borrow qeq fuel n sh q h f nd d degree) (cap + 3).
Proof.
  induction fuel as [|fuel IH]; intros r cap nd d degree T; cbn [c_hn_get_mut]; [now apply quiet_bad|]. destruct nd as [s|bk].
  - apply quiet_res. intros oi _. apply quiet_res. intros i _. apply quiet_res. intros g Eg. destruct g as [[c w]|].
    + destruct r as [|r]; [destruct T|]. cbn [tame] in T.
      eapply quiet_le; [eapply (quiet_bind _ _ _ _ _ _ _ _ 0); [apply (IH r)|]|rewrite Nat.add_0_r; apply le_n].
      * rewrite Forall_forall in T. apply T. eapply get_mut_in; eauto.
      * intros _ _ [c' x] _. apply quiet_ret.
    + eapply quiet_le; [apply quiet_ret|lia].
  - eapply quiet_le; [eapply (quiet_bind _ _ _ _ _ _ _ _ 0); [apply quiet_b_get_mut|]|rewrite Nat.add_0_r; apply le_n].
    + destruct r; exact T.
    + intros _ _ [c' x] _. apply quiet_ret.
Qed.

Lemma quiet_remove : forall q h fuel r cap nd d degree, tame r cap nd ->
  quiet (fun n => a_hn_remove ubits dbg borrow qeq fuel n q h nd d degree) (cap + 1).
Proof.
  induction fuel as [|fuel IH]; intros r cap nd d degree T; cbn [a_hn_remove]; [now apply quiet_bad|]. destruct nd as [s|bk].
  - apply quiet_res. intros oi _. apply quiet_res. intros i _. apply quiet_res. intros g Eg. destruct g as [[c w]|].
    + destruct r as [|r]; [destruct T|]. cbn [tame] in T.
      eapply quiet_le; [eapply (quiet_bind _ _ _ _ _ _ _ _ 0); [apply (IH r)|]|rewrite Nat.add_0_r; apply le_n].
      * rewrite Forall_forall in T. apply T. eapply get_mut_in; eauto.
      * intros _ _ [c' x] _. cbv zeta. apply quiet_res. intros emp _. destruct emp, x; try apply quiet_ret.
        -- apply quiet_res. intros s2 _. apply quiet_res. intros n' _. apply quiet_ret.
        -- apply quiet_res. intros n' _. apply quiet_ret.
    + eapply quiet_le; [apply quiet_ret|lia].
  - eapply quiet_le; [eapply (quiet_bind _ _ _ _ _ _ _ _ 0); [apply quiet_b_remove|]|rewrite Nat.add_0_r; apply le_n].
    + destruct r; exact T.
    + intros _ _ [c' x] _. apply quiet_ret.
Qed.

Variable b : N.
Hypothesis Hb : (0 < b)%N.
Hypothesis Hdeg : (2 ^ b <= ubits)%N.
Hypothesis Hub : (ubits <= 64)%N.
Notation degree := (2 ^ b)%N.
Notation cins := (c_hn_insert ubits dbg keq).

(** Into an empty branch nothing is compared. *)
Lemma insert_empty : forall fuel n d (x : entry) k n1 y, cins fuel n x new_empty_branch d degree = Ok (Done k (n1, y)) ->
  exists s1, n1 = HBranch s1 /\ sa_array s1 = [HLeaf (BSingle x)].
Proof using.
  intros [|fuel] n d x k n1 y H; [discriminate|]. unfold new_empty_branch in H. cbn [c_hn_insert] in H.
  destruct (index_from_hash _ _ _ _) as [oi| |]; cbn [bind] in H; try discriminate.
  destruct (unwrap oi) as [i| |]; cbn [bind] in H; try discriminate.
  destruct (sa_get_mut _ _ _ _) as [[[c w]|]| |] eqn:Eg; cbn [bind] in H; try discriminate.
  { apply get_mut_in in Eg. destruct Eg. }
  destruct (sa_set _ _ _ _ _) as [s2| |] eqn:Es; cbn [bind] in H; try discriminate. injection H as <- <- <-.
  exists s2. split; [reflexivity|]. unfold sa_set in Es.
  destruct (debug_assert _ _); cbn [bind] in Es; try discriminate.
  destruct (map_index _ _ _ _) as [[j|]| |]; cbn [bind] in Es; try discriminate.
  - destruct j; discriminate.
  - destruct (rank _ _ _ _) as [j| |]; cbn [bind] in Es; try discriminate.
    destruct (ushl _ _ _ _) as [one| |]; cbn [bind] in Es; try discriminate.
    destruct (vec_insert _ _ _) as [arr| |] eqn:Ev; cbn [bind] in Es; try discriminate. injection Es as <-. cbn [sa_array].
    destruct j; cbn in Ev; [now injection Ev as <-|discriminate].
Qed.
Lemma quiet_insert_empty : forall fuel d (x : entry), quiet (fun n => cins fuel n x new_empty_branch d degree) 0.
Proof using.
  intros [|fuel] d x; [now apply quiet_bad|]. unfold new_empty_branch. cbn [c_hn_insert].
  apply quiet_res. intros oi _. apply quiet_res. intros i _. apply quiet_res. intros [[c w]|] Eg.
  - apply get_mut_in in Eg. destruct Eg.
  - apply quiet_res. intros s' _. apply quiet_ret.
Qed.

Lemma quiet_insert : forall fuel r cap nd d e, tame r cap nd -> d + r = D b ->
  quiet (fun n => cins fuel n e nd d degree) (match nd with HBranch _ => r + 2 * cap | HLeaf _ => r + 2 * cap + 1 end).
Proof.
  induction fuel as [|fuel IH]; intros r cap nd d e T Hd; [now apply quiet_bad|]. destruct nd as [s|bk]; cbn [c_hn_insert].
  - destruct r as [|r]; [destruct T|]. cbn [tame] in T.
    apply quiet_res. intros oi _. apply quiet_res. intros i _. apply quiet_res. intros [[c w]|] Eg.
    + apply get_mut_in in Eg. rewrite Forall_forall in T. specialize (IH r cap c (S d) e (T c Eg) ltac:(lia)).
      eapply quiet_le; [eapply (quiet_bind _ _ _ _ _ _ _ _ 0); [exact IH|]|destruct c; lia].
      intros _ _ [c' x] _. apply quiet_ret.
    + apply quiet_res. intros s' _. eapply quiet_le; [apply quiet_ret|lia].
  - assert (T' : btame cap bk) by (destruct r; exact T).
    rewrite (index_ok ubits dbg b Hb Hdeg Hub) by lia. cbn [bind].
    assert (Lf : forall X Y, quiet (fun n => cbind (c_b_insert keq n e bk) (X : bucket -> node) (fun n '(b', new) => Ok (Done n (Y b' : node, new : bool)))) (cap + 1)).
    { intros X Y. eapply quiet_le; [eapply (quiet_bind _ _ _ _ _ _ _ _ 0); [apply quiet_b_insert; exact T'|]|lia].
      intros _ _ [b' new] _. apply quiet_ret. }
    destruct bk as [old|l].
    + eapply quiet_le; [eapply (quiet_bind _ _ _ _ _ _ _ 1 (r + 2 * cap)); [apply quiet_b_find; split; [apply le_n|exact I]|]|destruct T'; lia].
      intros _ _ o _. assert (1 <= cap) by apply T'.
      destruct (Nat.ltb_spec d (D b)); cbn [is_some negb]; [|eapply quiet_le; [apply Lf|lia]].
      destruct (is_some o); [eapply quiet_le; [apply Lf|lia]|].
      eapply quiet_le; [eapply (quiet_bind _ _ _ _ _ _ _ 0 (r + 2 * cap)); [apply quiet_insert_empty|]|lia].
      intros n k [n1 y] E1. destruct (insert_empty _ _ _ _ _ _ _ E1) as (s1 & -> & Ea).
      eapply quiet_le; [eapply (quiet_bind _ _ _ _ _ _ _ (r + 2 * cap) 0); [|]|lia].
      * apply (IH r cap (HBranch s1) d e); [|exact Hd]. destruct r as [|r]; [lia|]. cbn [tame]. rewrite Ea. constructor; [|constructor].
        destruct r; exact T'.
      * intros _ _ [n2 y2] _. apply quiet_ret.
    + eapply quiet_le; [eapply (quiet_bind _ _ _ _ _ _ _ cap (cap + 1)); [apply quiet_b_find; exact T'|]|lia].
      intros _ _ o _. destruct (Nat.ltb_spec d (D b)); cbn [is_some negb]; [|apply Lf].
      destruct (is_some o); [apply Lf|now apply quiet_bad].
Qed.
End Nodes.

(** ** The map *)
Section Map.
Variable ubits : N.
Variable dbg : bool.
Variable b : N.
Hypothesis Hb : (0 < b)%N.
Hypothesis Hdeg : (2 ^ b <= ubits)%N.
Hypothesis Hub : (ubits <= 64)%N.
Context {K V Q : Type}.
Variable keq : K -> K -> bool.
Variable borrow : K -> Q.
Variable qeq : Q -> Q -> bool.
Variable hash : K -> N.
Variable qhash : Q -> N.
Variable fuel : nat.
Notation node := (hnode K V).

Lemma dchl_len : forall (R : N -> node -> list (hentry K V) -> Prop) (P : node -> Prop) dig al es cap,
  dchl R dig al es -> (forall i n es, R i n es -> length es <= cap -> P n) -> length es <= cap -> Forall P (map snd al).
Proof using.
  clear. intros R P dig al es cap H HP. induction H as [|i c es al rest Hc _ _ IH]; intros L; cbn [map]; [constructor|].
  rewrite app_length in L. constructor; [apply (HP i c es Hc); lia|apply IH; lia].
Qed.
Lemma drep_tame : forall hit r d p (n : node) es cap, @drep ubits b K V hit r d p n es -> length es <= cap -> 1 <= cap ->
  tame r cap n.
Proof using.
  clear Hb Hdeg Hub. intros hit. induction r as [|r IH]; intros d p n es cap H L C; destruct n as [s|[e|l]]; cbn [drep tame] in *; try contradiction.
  - split; [exact C|exact I].
  - split; [exact C|]. exists es. split; [apply H|exact L].
  - destruct H as (al & (_ & -> & _) & Hc).
    eapply dchl_len; [exact Hc| |exact L]. cbv beta. intros i n es' H' L'. eapply IH; eauto.
  - split; [exact C|exact I].
  - destruct H as (H & _). discriminate.
Qed.

Lemma quiet_step : forall sh o (m : hmap K V) fm lost, dm_rep ubits b keq hash m fm lost ->
  quiet (fun n => a_hm_step ubits dbg keq borrow qeq hash qhash fuel n sh o m) (D b + 2 * length fm + 5).
Proof.
  intros sh o m fm lost (es & Hr & _ & Hp & _ & _ & Hd).
  assert (T : tame (D b) (length fm + 1) (hm_root m)).
  { eapply drep_tame; [exact Hr| |lia]. rewrite <- (Permutation_length Hp), map_length. lia. }
  assert (QI : forall k v, quiet (fun n => c_hm_insert_mut ubits dbg keq hash fuel n m k v) (D b + 2 * length fm + 4)).
  { intros k v. eapply quiet_le; [unfold c_hm_insert_mut; apply quiet_call; eapply (quiet_bind _ _ _ _ _ _ _ _ 0)|].
    - rewrite Hd. apply (quiet_insert ubits dbg keq b Hb Hdeg Hub fuel (D b)); [exact T|reflexivity].
    - intros _ _ [root new] _. apply quiet_ret.
    - destruct (hm_root m); lia. }
  assert (QR : forall q, quiet (fun n => a_hm_remove_mut ubits dbg borrow qeq qhash fuel n m q) (D b + 2 * length fm + 4)).
  { intros q. eapply quiet_le; [unfold a_hm_remove_mut; apply quiet_call; eapply (quiet_bind _ _ _ _ _ _ _ _ 0)|].
    - eapply quiet_remove. exact T.
    - intros _ _ [root [|]] _; [apply quiet_res; intros size _|]; apply quiet_ret.
    - lia. }
  assert (QM : forall q f, quiet (fun n => c_hm_get_mut ubits dbg borrow qeq qhash fuel n sh m q f) (D b + 2 * length fm + 5)).
  { intros q f. eapply quiet_le; [unfold c_hm_get_mut; apply quiet_call; eapply (quiet_bind _ _ _ _ _ _ _ _ 0)|].
    - eapply quiet_get_mut. exact T.
    - intros _ _ [root r] _. apply quiet_ret.
    - lia. }
  assert (QF : forall q, quiet (fun n => c_hm_find ubits dbg borrow qeq qhash fuel n m q) (D b + 2 * length fm + 4)).
  { intros q. eapply quiet_le; [unfold c_hm_find; apply quiet_call; eapply (quiet_bind _ _ _ _ _ _ _ _ 0)|].
    - eapply quiet_get. exact T.
    - intros _ _ r _. apply quiet_ret.
    - lia. }
  eapply quiet_le; [|rewrite <- Nat.add_0_r; apply le_n].
  destruct o; cbn [a_hm_step c_hm_step]; try (eapply quiet_le; [apply quiet_ret|lia]).
  1, 2: apply quiet_bind; [eapply quiet_le; [apply QI|lia]|intros _ _ m' _; apply quiet_ret].
  1, 2: apply quiet_bind; [eapply quiet_le; [apply QR|lia]|intros _ _ [m' x] _; apply quiet_ret].
  - apply quiet_bind; [apply QM|intros _ _ [m' x] _; apply quiet_ret].
  - apply quiet_bind; [eapply quiet_le; [apply QF|lia]|intros _ _ x _; apply quiet_ret].
  - apply quiet_bind; [eapply quiet_le; [apply QF|lia]|intros _ _ x _; apply quiet_ret].
  - apply quiet_bind; [eapply quiet_le; [apply QF|lia]|intros _ _ x _; apply quiet_ret].
Qed.
End Map.
