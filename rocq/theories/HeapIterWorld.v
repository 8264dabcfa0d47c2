(** * Programs that hold iterators

    Generic over the collection.  The programs of HeapClient.v again, which now also
    create iterators over the versions they hold and call them in any order, with other
    calls on other versions in between.

    An iterator borrows the version it was made from ([&'a self] in every [iter] and
    [range] of the crate): while it is alive the compiler accepts clones of that version
    and calls that take [&self], and no call that changes or drops it.  [allowed] is that
    rule.  An iterator owns no pointer; it holds borrowed addresses.

    The specification of a program knows nothing of pointers: an iterator is the sequence
    it will deliver, fixed when it is made. *)
From Coq Require Import List Arith Lia Bool Permutation.
From Verif Require Import Base Spec PermSolve HeapModel HeapProofs HeapSafe HeapClient HeapWorld HeapDrive HeapLooks HeapWork.
Import ListNotations.
Local Open Scope prog_scope.

Section Iter.
Context {C : Type} (kids : C -> list addr) (credit : nat) (fine : C -> Prop).
Context {Coll Val Op Out Arg Dir Ans St Seq : Type}.

(** [IOpen i a]: make an iterator over register [i] ([a]: the bounds of a range); iterators
    are numbered in the order they are made.  [INext j d]: one call of iterator [j], from
    the end [d].  [IClose j]: iterator [j] is dropped. *)
Inductive icmd := IDo (c : cmd Op) | IOpen (i : nat) (a : Arg) | INext (j : nat) (d : Dir) | IClose (j : nat).

(** ** The specification *)
Section Spec.
Context (vnew : Val) (vop : Op -> Val -> Val * Out) (snext : Dir -> Seq -> Seq * Ans).

(** The outputs; [os]: what the iterators made will deliver, in the order they are made. *)
Fixpoint siclient (l : list icmd) (rs : list (option Val)) (its : list (option Seq)) (os : list Seq)
  : list (Out + Ans) :=
  match l with
  | [] => []
  | IDo c :: l' =>
      map inl (snd (sclient vnew vop [c] rs)) ++ siclient l' (fst (sclient vnew vop [c] rs)) its os
  | IOpen i a :: l' =>
      match nth_error rs i, os with
      | Some (Some _), o :: os' => siclient l' rs (its ++ [Some o]) os'
      | _, _ => siclient l' rs its os
      end
  | INext j d :: l' =>
      match nth_error its j with
      | Some (Some s) => inr (snd (snext d s)) :: siclient l' rs (upd its j (Some (fst (snext d s)))) os
      | _ => siclient l' rs its os
      end
  | IClose j :: l' => siclient l' rs (upd its j None) os
  end.

(** The registers and which of them each iterator borrows. *)
Definition regs_after (x : icmd) (rs : list (option Val)) : list (option Val) :=
  match x with IDo c => fst (sclient vnew vop [c] rs) | _ => rs end.
Definition loans_after (x : icmd) (rs : list (option Val)) (lo : list (option nat)) : list (option nat) :=
  match x with
  | IOpen i _ => match nth_error rs i with Some (Some _) => lo ++ [Some i] | _ => lo end
  | IClose j => upd lo j None
  | _ => lo
  end.

Fixpoint iafter (l : list icmd) (rs : list (option Val)) (lo : list (option nat))
  : list (option Val) * list (option nat) :=
  match l with
  | [] => (rs, lo)
  | x :: l' => iafter l' (regs_after x rs) (loans_after x rs lo)
  end.

(** What the iterators are made from. *)
Fixpoint opened (l : list icmd) (rs : list (option Val)) : list (Arg * Val) :=
  match l with
  | [] => []
  | x :: l' =>
      match x with
      | IOpen i a => match nth_error rs i with Some (Some v) => [(a, v)] | _ => [] end
      | _ => []
      end ++ opened l' (regs_after x rs)
  end.

Definition on_loan (lo : list (option nat)) (i : nat) : bool :=
  existsb (fun x => match x with Some i' => Nat.eqb i' i | None => false end) lo.

(** [reads o]: the call [o] takes [&self]. *)
Context (reads : Op -> bool) (pre : Op -> Val -> Prop) (ipre : Arg -> Val -> Prop).

Definition allowed (x : icmd) (rs : list (option Val)) (lo : list (option nat)) : Prop :=
  match x with
  | IDo (COp i o) =>
      (on_loan lo i = false \/ reads o = true) /\ (forall v, nth_error rs i = Some (Some v) -> pre o v)
  | IDo (CDrop i) => on_loan lo i = false
  | IOpen i a => forall v, nth_error rs i = Some (Some v) -> ipre a v
  | _ => True
  end.

Fixpoint iwithin (l : list icmd) (rs : list (option Val)) (lo : list (option nat)) : Prop :=
  match l with
  | [] => True
  | x :: l' => allowed x rs lo /\ iwithin l' (regs_after x rs) (loans_after x rs lo)
  end.

(** What a program may spend: a price for making an iterator over a version, and one for
    each call of it. *)
Context (nnew nclone ndrop : nat) (price : Op -> Val -> nat) (oprice : Arg -> Val -> nat) (nprice : Val -> nat).

Definition charge (x : icmd) (rs : list (option Val)) (lo : list (option nat)) : nat :=
  match x with
  | IDo c => price_of vnew vop nnew nclone ndrop price [c] rs
  | IOpen i a => match nth_error rs i with Some (Some v) => oprice a v | _ => 0 end
  | INext j _ =>
      match nth_error lo j with
      | Some (Some i) => match nth_error rs i with Some (Some v) => nprice v | _ => 0 end
      | _ => 0
      end
  | IClose _ => 0
  end.

Fixpoint iprice (l : list icmd) (rs : list (option Val)) (lo : list (option nat)) : nat :=
  match l with
  | [] => 0
  | x :: l' => charge x rs lo + iprice l' (regs_after x rs) (loans_after x rs lo)
  end.
End Spec.

(** ** On the heap *)
Context (hnew : prog C Coll) (hclone : Coll -> prog C Coll) (hdrop : Coll -> prog C unit)
        (hop : Op -> Coll -> prog C (Coll * Out)).
Context (iopen : Arg -> Coll -> prog C St) (inext : Dir -> St -> prog C (St * Ans)).

Fixpoint hiclient (l : list icmd) (rs : list (option Coll)) (its : list (option St))
  : prog C ((list (option Coll) * list (option St)) * list (Out + Ans)) :=
  match l with
  | [] => Ret ((rs, its), [])
  | IDo c :: l' =>
      let* (rs', xs) := hclient hnew hclone hdrop hop [c] rs in
      let* (st, ys) := hiclient l' rs' its in
      Ret (st, map inl xs ++ ys)
  | IOpen i a :: l' =>
      match nth_error rs i with
      | Some (Some c) => let* it := iopen a c in hiclient l' rs (its ++ [Some it])
      | _ => hiclient l' rs its
      end
  | INext j d :: l' =>
      match nth_error its j with
      | Some (Some it) =>
          let* (it', y) := inext d it in
          let* (st, ys) := hiclient l' rs (upd its j (Some it')) in
          Ret (st, inr y :: ys)
      | _ => hiclient l' rs its
      end
  | IClose j :: l' => hiclient l' rs (upd its j None)
  end.

(** ** Correctness, from that of each call and of each step of an iterator *)
Notation own := (@own C).
Notation dear := (dear kids credit fine).
Context (roots : Coll -> list addr) (rep : Coll -> Val -> list own -> Prop).
(** [irel v it s G]: the iterator [it] over a version with value [v] that owns [G] has [s]
    still to deliver. *)
Context (irel : Val -> St -> Seq -> list own -> Prop).
Context (vnew : Val) (vop : Op -> Val -> Val * Out) (snext : Dir -> Seq -> Seq * Ans).
Context (sopen : Arg -> Val -> Seq -> Prop).
Context (reads : Op -> bool) (pre : Op -> Val -> Prop) (ipre : Arg -> Val -> Prop).
Context (nnew nclone ndrop : nat) (price : Op -> Val -> nat) (oprice : Arg -> Val -> nat) (nprice : Val -> nat).

(** A program that only reads and hands back the collection it was given. *)
Fixpoint gentle (c : Coll) (p : prog C (Coll * Out)) : Prop :=
  match p with
  | Ret x => fst x = c
  | Fail => True
  | Read _ k => forall x, gentle c (k x)
  | _ => False
  end.

Lemma gentle_bind : forall {X} c (p : prog C X) f,
  quiet p -> (forall x, gentle c (f x)) -> gentle c (pbind p f).
Proof. intros X c p. induction p; intros f; cbn [quiet gentle pbind]; try easy; auto. Qed.

Hypothesis new_dear : dear nnew hnew [] (fun c G => rep c vnew G).
Hypothesis clone_dear : forall c v G, rep c v G ->
  dear nclone (hclone c) G (fun c' G' => exists G2, G' = G ++ G2 /\ rep c' v G2).
Hypothesis drop_dear : forall c v G, rep c v G -> dear ndrop (hdrop c) G (fun _ G' => G' = []).
Hypothesis op_dear : forall o c v G, rep c v G -> pre o v ->
  dear (price o v) (hop o c) G
    (fun r G' => snd r = snd (vop o v) /\ rep (fst r) (fst (vop o v)) G').
Hypothesis reads_gentle : forall o c, reads o = true -> gentle c (hop o c).
Hypothesis reads_same : forall o v, reads o = true -> fst (vop o v) = v.
Hypothesis rep_roots : forall c v G, rep c v G -> exists ts, G = map Tree ts /\ roots c = map pa ts.
Hypothesis open_looks : forall a c v G, rep c v G -> ipre a v ->
  looks (oprice a v) (iopen a c) G (fun it => exists s, sopen a v s /\ irel v it s G).
Hypothesis next_looks : forall v it s G d, irel v it s G ->
  looks (nprice v) (inext d it) G (fun r => snd r = snd (snext d s) /\ irel v (fst r) (fst (snext d s)) G).

Lemma gentle_dear : forall (p : prog C (Coll * Out)) c n G Q, gentle c p -> dear n p G Q ->
  dear n p G (fun x G' => G' = G /\ fst x = c /\ exists G'', Q x G'').
Proof.
  intros p c. induction p; intros n G Q Hg; cbn [gentle HeapWork.dear] in *; try easy.
  - intros (G' & P & q). exists G. splits; trivial. eauto.
  - intros (n' & d & ts & -> & L & S). exists n', d, ts. splits; trivial. intros. eauto.
Qed.

Lemma dear_post : forall {A} (p : prog C A) n G (Q Q' : A -> list own -> Prop),
  dear n p G Q -> (forall x G', Q x G' -> Q' x G') -> dear n p G Q'.
Proof.
  intros A p n G Q Q' D W. apply (dear_frame kids credit fine p n n G G [] Q Q'); trivial; [now rewrite app_nil_r|].
  intros x G' q. exists G'. rewrite app_nil_r. auto.
Qed.

(** *** The state: what each register owns, and where each iterator is *)
Definition kept (rs : list (option Coll)) (vs : list (option Val)) (Gs : list (list own)) : Prop :=
  length rs = length vs /\ length Gs = length vs /\
  forall j, piece rep (nth j rs None) (nth j vs None) (nth j Gs []).

Definition iters (its : list (option St)) (lo : list (option nat)) (ss : list (option Seq))
  (vs : list (option Val)) (Gs : list (list own)) : Prop :=
  length its = length lo /\ length ss = length lo /\
  forall j, match nth j its None, nth j lo None, nth j ss None with
            | Some it, Some i, Some s => exists v, nth_error vs i = Some (Some v) /\ irel v it s (nth i Gs [])
            | None, None, None => True
            | _, _, _ => False
            end.

Lemma nth_of : forall {X} (l : list (option X)) i x, nth_error l i = Some (Some x) <-> nth i l None = Some x.
Proof.
  intros X l. induction l as [|y l IH]; intros [|i] x; cbn; split; try discriminate; try congruence; apply IH.
Qed.
Lemma nth_gone : forall {X} (l : list (option X)) i, nth i l None = None ->
  match nth_error l i with Some (Some _) => False | _ => True end.
Proof. intros X l. induction l as [|y l IH]; intros [|i] E; cbn in *; subst; trivial. now apply IH. Qed.

Lemma nth_upd_is : forall {X} (l : list X) i x d, i < length l -> nth i (upd l i x) d = x.
Proof. intros X l. induction l; intros [|i] x d L; cbn in *; try lia; trivial. apply IHl. lia. Qed.
Lemma nth_upd_not : forall {X} (l : list X) i j x d, i <> j -> nth j (upd l i x) d = nth j l d.
Proof. intros X l. induction l; intros [|i] [|j] x d N; cbn in *; try congruence; auto. Qed.

Lemma concat_upd : forall (Gs : list (list own)) i G, i < length Gs ->
  Permutation (concat (upd Gs i G)) (G ++ concat (upd Gs i [])).
Proof.
  induction Gs as [|G0 Gs IH]; intros [|i] G L; cbn in *; try lia; [perm|].
  eapply Permutation_trans; [apply Permutation_app_head, IH; lia|]. perm.
Qed.
Lemma upd_nth_self : forall {X} (l : list X) i d, upd l i (nth i l d) = l.
Proof. intros X l. induction l; intros [|i] d; cbn; congruence. Qed.
Lemma concat_take : forall (Gs : list (list own)) i, i < length Gs ->
  Permutation (concat Gs) (nth i Gs [] ++ concat (upd Gs i [])).
Proof. intros Gs i L. rewrite <- (concat_upd Gs i _ L). now rewrite upd_nth_self. Qed.

Lemma nth_error_lt : forall {X} (l : list X) i x, nth_error l i = Some x -> i < length l.
Proof. intros X l i x E. apply nth_error_Some. congruence. Qed.

Lemma kept_at : forall rs vs Gs i, kept rs vs Gs ->
  match nth_error vs i with
  | Some (Some v) => exists c, nth_error rs i = Some (Some c) /\ rep c v (nth i Gs []) /\ i < length Gs
  | _ => match nth_error rs i with Some (Some _) => False | _ => True end
  end.
Proof.
  intros rs vs Gs i (L1 & L2 & P). specialize (P i).
  destruct (nth_error vs i) as [[v|]|] eqn:E.
  - assert (Lt := nth_error_lt _ _ _ E). rewrite nth_of in E. rewrite E in P.
    destruct (nth i rs None) as [c|] eqn:Ec; [|contradiction]. exists c. rewrite nth_of. splits; trivial. congruence.
  - apply nth_error_nth with (d := None) in E. rewrite E in P.
    destruct (nth i rs None) as [c|] eqn:Ec; [contradiction|]. now apply nth_gone.
  - apply nth_error_None in E. rewrite <- L1 in E. apply nth_error_None in E. now rewrite E.
Qed.

Lemma kept_upd : forall rs vs Gs i c v G, kept rs vs Gs -> i < length Gs -> piece rep c v G ->
  kept (upd rs i c) (upd vs i v) (upd Gs i G).
Proof.
  intros rs vs Gs i c v G (L1 & L2 & P) L p. unfold kept. rewrite !length_upd. splits; trivial.
  intros j. destruct (Nat.eq_dec i j) as [<-|N].
  - rewrite !nth_upd_is by congruence. exact p.
  - rewrite !nth_upd_not by trivial. apply P.
Qed.

Lemma nth_snoc : forall {X} (l : list X) x d j, nth j (l ++ [x]) d = if j <? length l then nth j l d else nth (j - length l) [x] d.
Proof.
  intros X l x d j. destruct (j <? length l) eqn:E.
  - apply Nat.ltb_lt in E. now apply app_nth1.
  - apply Nat.ltb_ge in E. now apply app_nth2.
Qed.

Lemma kept_snoc : forall rs vs Gs c v G, kept rs vs Gs -> rep c v G ->
  kept (rs ++ [Some c]) (vs ++ [Some v]) (Gs ++ [G]).
Proof.
  intros rs vs Gs c v G (L1 & L2 & P) r. unfold kept. rewrite !app_length, L1, L2. splits; trivial.
  intros j. rewrite !nth_snoc, L1, L2. destruct (j <? length vs); [apply P|].
  destruct (j - length vs) as [|[|k]]; cbn; trivial.
Qed.

(** What is on loan stays as it is. *)
Definition spared (lo : list (option nat)) (vs vs' : list (option Val)) (Gs Gs' : list (list own)) : Prop :=
  forall i v, on_loan lo i = true -> nth_error vs i = Some (Some v) ->
    nth_error vs' i = Some (Some v) /\ nth i Gs' [] = nth i Gs [].

Lemma on_loan_at : forall lo j i, nth j lo None = Some i -> on_loan lo i = true.
Proof.
  unfold on_loan. induction lo as [|x lo IH]; intros [|j] i E; cbn in *; try discriminate.
  - subst x. now rewrite Nat.eqb_refl.
  - rewrite (IH j i E). apply orb_true_r.
Qed.

Lemma iters_spared : forall its lo ss vs Gs vs' Gs', iters its lo ss vs Gs -> spared lo vs vs' Gs Gs' ->
  iters its lo ss vs' Gs'.
Proof.
  intros its lo ss vs Gs vs' Gs' (L1 & L2 & P) H. split; [exact L1|]. split; [exact L2|]. intros j. specialize (P j).
  destruct (nth j its None), (nth j lo None) as [i|] eqn:El, (nth j ss None); trivial.
  destruct P as (v & E & r). destruct (H i v (on_loan_at _ _ _ El) E) as (E' & EG). exists v. rewrite EG. auto.
Qed.

Lemma spared_refl : forall lo vs Gs, spared lo vs vs Gs Gs.
Proof. intros lo vs Gs i v _ E. auto. Qed.

Lemma spared_snoc : forall lo vs (Gs : list (list own)) v G, length Gs = length vs ->
  spared lo vs (vs ++ [Some v]) Gs (Gs ++ [G]).
Proof.
  intros lo vs Gs v G L i w _ E. assert (Lt := nth_error_lt _ _ _ E).
  split; [now rewrite nth_error_app1|]. apply app_nth1. now rewrite L.
Qed.

Lemma spared_upd : forall lo vs (Gs : list (list own)) i v G, on_loan lo i = false ->
  spared lo vs (upd vs i v) Gs (upd Gs i G).
Proof.
  intros lo vs Gs i v G L j w Lj E. assert (N : i <> j) by congruence.
  split; [now rewrite nth_upd_ne|now apply nth_upd_not].
Qed.

(** *** One client command *)
Lemma do_dear : forall c rs vs Gs lo, kept rs vs Gs -> allowed reads pre ipre (IDo c) vs lo ->
  dear (price_of vnew vop nnew nclone ndrop price [c] vs) (hclient hnew hclone hdrop hop [c] rs) (concat Gs)
    (fun r G' => snd r = snd (sclient vnew vop [c] vs) /\ exists Gs', G' = concat Gs' /\
       kept (fst r) (fst (sclient vnew vop [c] vs)) Gs' /\ spared lo vs (fst (sclient vnew vop [c] vs)) Gs Gs').
Proof.
  intros c rs vs Gs lo K A. destruct c as [|i|i o|i]; cbn [hclient sclient price_of allowed] in *.
  - change (concat Gs) with ([] ++ concat Gs). eapply dear_bind; [exact new_dear|].
    intros c G r. exists (concat (Gs ++ [G])). split; [rewrite concat_app; cbn; perm|].
    cbn [fst snd]. split; [trivial|]. exists (Gs ++ [G]). split; [trivial|]. split; [now apply kept_snoc|].
    apply spared_snoc. apply K.
  - assert (N := kept_at _ _ _ i K). destruct (nth_error vs i) as [[v|]|] eqn:Ev.
    2,3: destruct (nth_error rs i) as [[c|]|]; [contradiction|..]; (apply dear_ret; cbn [fst snd]; split; [trivial|];
         exists Gs; split; [trivial|]; split; [trivial|apply spared_refl]).
    destruct N as (c & E & r & L). rewrite E.
    eapply dear_perm; [apply Permutation_sym, (concat_take Gs i L)|].
    eapply dear_bind; [apply (clone_dear _ _ _ r)|].
    intros c' G' (G2 & -> & r2). exists (concat (Gs ++ [G2])). split.
    { rewrite concat_app. cbn [concat]. rewrite app_nil_r.
      eapply Permutation_trans; [|apply Permutation_app_tail, Permutation_sym, (concat_take Gs i L)]. perm. }
    cbn [fst snd]. split; [trivial|]. exists (Gs ++ [G2]). split; [trivial|]. split; [now apply kept_snoc|].
    apply spared_snoc. apply K.
  - assert (N := kept_at _ _ _ i K). destruct (nth_error vs i) as [[v|]|] eqn:Ev.
    2,3: destruct (nth_error rs i) as [[c|]|]; [contradiction|..]; (apply dear_ret; cbn [fst snd]; split; [trivial|];
         exists Gs; split; [trivial|]; split; [trivial|apply spared_refl]).
    destruct N as (c & E & r & L). rewrite E. destruct A as (A & Hp). specialize (Hp v eq_refl).
    eapply dear_perm; [apply Permutation_sym, (concat_take Gs i L)|].
    destruct A as [Hf|Hr].
    + eapply dear_bind; [apply (op_dear _ _ _ _ r Hp)|].
      intros [c' y] G' (Ey & r'). cbn [fst snd] in *.
      destruct (vop o v) as [v' y'] eqn:Eo. cbn [fst snd] in *. subst y'.
      exists (concat (upd Gs i G')). split; [apply Permutation_sym, (concat_upd Gs i G' L)|].
      cbn [fst snd]. split; [trivial|]. exists (upd Gs i G'). split; [trivial|].
      split; [now apply kept_upd|now apply spared_upd].
    + eapply dear_bind; [apply (gentle_dear _ c _ _ _ (reads_gentle o c Hr) (op_dear _ _ _ _ r Hp))|].
      intros [c' y] G' (-> & Ec & G'' & Ey & _). cbn [fst snd] in *. subst c'.
      assert (Es := reads_same o v Hr). destruct (vop o v) as [v' y'] eqn:Eo. cbn [fst snd] in *. subst y' v'.
      exists (concat Gs). split; [apply Permutation_sym, (concat_take Gs i L)|].
      rewrite (upd_same rs), (upd_same vs) by trivial.
      cbn [fst snd]. split; [trivial|]. exists Gs. split; [trivial|]. split; [trivial|apply spared_refl].
  - assert (N := kept_at _ _ _ i K). destruct (nth_error vs i) as [[v|]|] eqn:Ev.
    2,3: destruct (nth_error rs i) as [[c|]|]; [contradiction|..]; (apply dear_ret; cbn [fst snd]; split; [trivial|];
         exists Gs; split; [trivial|]; split; [trivial|apply spared_refl]).
    destruct N as (c & E & r & L). rewrite E.
    eapply dear_perm; [apply Permutation_sym, (concat_take Gs i L)|].
    eapply dear_bind; [apply (drop_dear _ _ _ r)|].
    intros [] G' ->. exists (concat (upd Gs i [])). split; [apply Permutation_refl|].
    cbn [fst snd]. split; [trivial|]. exists (upd Gs i []). split; [trivial|].
    split; [now apply kept_upd|now apply spared_upd].
Qed.

(** *** A whole program *)
Lemma iters_at : forall its lo ss vs Gs j, iters its lo ss vs Gs ->
  match nth_error its j with
  | Some (Some it) => exists i s v, nth_error lo j = Some (Some i) /\ nth_error ss j = Some (Some s) /\
      nth_error vs i = Some (Some v) /\ irel v it s (nth i Gs []) /\ j < length lo
  | _ => match nth_error ss j with Some (Some _) => False | _ => True end
  end.
Proof.
  intros its lo ss vs Gs j (L1 & L2 & P). specialize (P j).
  destruct (nth_error its j) as [[it|]|] eqn:E.
  - assert (Lt := nth_error_lt _ _ _ E). rewrite nth_of in E. rewrite E in P.
    destruct (nth j lo None) as [i|] eqn:El; [|contradiction]. destruct (nth j ss None) as [s|] eqn:Es; [|contradiction].
    destruct P as (v & Ev & r). exists i, s, v. rewrite !nth_of. splits; trivial; [now rewrite nth_of in Ev|congruence].
  - apply nth_error_nth with (d := None) in E. rewrite E in P.
    destruct (nth j lo None); [contradiction|]. destruct (nth j ss None) eqn:Es; [contradiction|]. now apply nth_gone.
  - apply nth_error_None in E. replace (length its) with (length ss) in E by congruence.
    apply nth_error_None in E. now rewrite E.
Qed.

Lemma iters_snoc : forall its lo ss vs Gs it i s v, iters its lo ss vs Gs ->
  nth_error vs i = Some (Some v) -> irel v it s (nth i Gs []) ->
  iters (its ++ [Some it]) (lo ++ [Some i]) (ss ++ [Some s]) vs Gs.
Proof.
  intros its lo ss vs Gs it i s v (L1 & L2 & P) E r. split; [rewrite !app_length; cbn; congruence|].
  split; [rewrite !app_length; cbn; congruence|].
  intros j. rewrite !nth_snoc, L1, L2. destruct (j <? length lo); [apply P|].
  destruct (j - length lo) as [|[|k]]; cbn; trivial. eauto.
Qed.

Lemma iters_upd : forall its lo ss vs Gs it i s v j, iters its lo ss vs Gs ->
  nth_error lo j = Some (Some i) -> nth_error vs i = Some (Some v) -> irel v it s (nth i Gs []) -> j < length lo ->
  iters (upd its j (Some it)) lo (upd ss j (Some s)) vs Gs.
Proof.
  intros its lo ss vs Gs it i s v j (L1 & L2 & P) El Ev r L. split; [now rewrite length_upd|].
  split; [now rewrite length_upd|].
  intros k. destruct (Nat.eq_dec j k) as [<-|N].
  - rewrite !nth_upd_is by congruence. rewrite nth_of in El. rewrite El. eauto.
  - rewrite !nth_upd_not by trivial. apply P.
Qed.

Lemma upd_out : forall {X} (l : list X) i x, length l <= i -> upd l i x = l.
Proof. intros X l. induction l; intros [|i] x L; cbn in *; trivial; [lia|]. rewrite IHl; trivial. lia. Qed.

Lemma iters_close : forall its lo ss vs Gs j, iters its lo ss vs Gs ->
  iters (upd its j None) (upd lo j None) (upd ss j None) vs Gs.
Proof.
  intros its lo ss vs Gs j (L1 & L2 & P). unfold iters. rewrite !length_upd. split; [trivial|]. split; [trivial|].
  intros k. destruct (Nat.eq_dec j k) as [<-|N].
  - destruct (Nat.lt_ge_cases j (length lo)) as [L|L].
    + rewrite !nth_upd_is by congruence. exact I.
    + rewrite !upd_out by congruence. apply P.
  - rewrite !nth_upd_not by trivial. apply P.
Qed.

Definition fresh (x : Arg * Val) (s : Seq) : Prop := sopen (fst x) (snd x) s.

Lemma iclient_dear : forall l rs vs Gs its lo ss,
  kept rs vs Gs -> iters its lo ss vs Gs -> iwithin vnew vop reads pre ipre l vs lo ->
  dear (iprice vnew vop nnew nclone ndrop price oprice nprice l vs lo) (hiclient l rs its) (concat Gs)
    (fun r G' => exists os, Forall2 fresh (opened vnew vop l vs) os /\
       snd r = siclient vnew vop snext l vs ss os /\
       exists Gs' ss', G' = concat Gs' /\
         kept (fst (fst r)) (fst (iafter vnew vop l vs lo)) Gs' /\
         iters (snd (fst r)) (snd (iafter vnew vop l vs lo)) ss' (fst (iafter vnew vop l vs lo)) Gs').
Proof.
  induction l as [|x l IH]; intros rs vs Gs its lo ss K It W.
  - apply dear_ret. exists []. cbn. split; [constructor|]. split; [trivial|]. exists Gs, ss. auto.
  - cbn [iwithin iprice iafter opened] in *. destruct W as (A & W).
    destruct x as [c|i a|j d|j]; cbn [hiclient siclient charge regs_after loans_after] in *.
    + rewrite <- (app_nil_r (concat Gs)). eapply dear_bind; [exact (do_dear c rs vs Gs lo K A)|].
      intros [rs' xs] G' (Ex & Gs' & -> & K' & Sp). cbn [fst snd] in *. subst xs.
      rewrite <- (Nat.add_0_r (iprice _ _ _ _ _ _ _ _ _ _ _)).
      eapply dear_bind; [apply IH; [exact K'|exact (iters_spared _ _ _ _ _ _ _ It Sp)|exact W]|].
      intros [st ys] G2 (os & F & Ey & Gs2 & ss2 & -> & K2 & I2). cbn [fst snd] in *. subst ys.
      apply dear_ret. exists os. split; [exact F|]. split; [trivial|]. exists Gs2, ss2. rewrite app_nil_r. auto.
    + assert (N := kept_at _ _ _ i K). destruct (nth_error vs i) as [[v|]|] eqn:Ev.
      2,3: destruct (nth_error rs i) as [[c|]|]; [contradiction|..]; cbn [app]; exact (IH rs vs Gs its lo ss K It W).
      destruct N as (c & E & r & L). rewrite E. specialize (A v Ev).
      eapply dear_perm; [apply Permutation_sym, (concat_take Gs i L)|].
      eapply dear_bind with (Q1 := fun it G' => (exists s, sopen a v s /\ irel v it s (nth i Gs [])) /\ G' = nth i Gs []).
      { eapply looks_dear; [apply (open_looks a c v _ r A)|].
        intros it Hi. exact (conj Hi eq_refl). }
      cbn beta. intros it G' ((s & Hs & Hr) & ->).
      eapply dear_perm; [apply (concat_take Gs i L)|].
      assert (D := IH rs vs Gs (its ++ [Some it]) (lo ++ [Some i]) (ss ++ [Some s]) K
                    (iters_snoc _ _ _ _ _ _ _ _ _ It Ev Hr) W).
      eapply dear_post; [exact D|]. intros r' G' (os & F & Ey & Z). exists (s :: os).
      split; [cbn [app]; constructor; trivial|]. split; [exact Ey|exact Z].
    + cbn [app]. assert (N := iters_at _ _ _ _ _ j It). destruct (nth_error its j) as [[it|]|] eqn:Ej.
      2,3: destruct (nth_error ss j) as [[s|]|]; [contradiction|..];
           (eapply dear_le; [exact (IH rs vs Gs its lo ss K It W)|lia]).
      destruct N as (i & s & v & El & Es & Ev & Hr & Lj). rewrite Es, El, Ev.
      assert (N := kept_at _ _ _ i K). rewrite Ev in N. destruct N as (c & _ & _ & L).
      eapply dear_perm; [apply Permutation_sym, (concat_take Gs i L)|].
      eapply dear_bind with (Q1 := fun r G' => (snd r = snd (snext d s) /\ irel v (fst r) (fst (snext d s)) (nth i Gs [])) /\
                                     G' = nth i Gs []).
      { eapply looks_dear; [apply (next_looks v it s _ d Hr)|]. intros y Hy. exact (conj Hy eq_refl). }
      cbn beta. intros [it' y] G' ((Ey & Hr') & ->). cbn [fst snd] in *. subst y.
      eapply dear_perm; [apply (concat_take Gs i L)|].
      rewrite <- (app_nil_r (concat Gs)), <- (Nat.add_0_r (iprice _ _ _ _ _ _ _ _ _ _ _)).
      eapply dear_bind; [apply IH; [exact K|exact (iters_upd _ _ _ _ _ _ _ _ _ _ It El Ev Hr' Lj)|exact W]|].
      intros [st ys] G2 (os & F & Ey & Gs2 & ss2 & -> & K2 & I2). cbn [fst snd] in *. subst ys.
      apply dear_ret. exists os. split; [exact F|]. split; [trivial|]. exists Gs2, ss2. rewrite app_nil_r. auto.
    + cbn [app]. exact (IH rs vs Gs _ _ _ K (iters_close _ _ _ _ _ j It) W).
Qed.

(** ** The properties, for any collection *)

(** Every program runs to its end on the shared heap with the outputs it has when every
    version and every iterator is a value of its own; afterwards the counts are exact
    (iterators have none); and the steps it makes are at most what its calls are allowed. *)
Definition iterates : Prop := forall l,
  iwithin vnew vop reads pre ipre l [] [] ->
  exists h rs its os,
    run [] (hiclient l [] []) = Some (h, ((rs, its), siclient vnew vop snext l [] [] os)) /\
    Forall2 fresh (opened vnew vop l []) os /\
    exact_heap kids h (reg_roots roots rs) /\
    work [] (hiclient l [] []) <= iprice vnew vop nnew nclone ndrop price oprice nprice l [] [].

(** In any state any program can reach, one call of an iterator reads at most so many cells
    and changes nothing, and so does making one. *)
Definition next_cheap : Prop := forall l j i v d,
  iwithin vnew vop reads pre ipre l [] [] ->
  nth_error (snd (iafter vnew vop l [] [])) j = Some (Some i) ->
  nth_error (fst (iafter vnew vop l [] [])) i = Some (Some v) ->
  exists h rs its xs it it' y,
    run [] (hiclient l [] []) = Some (h, ((rs, its), xs)) /\ nth_error its j = Some (Some it) /\
    run h (inext d it) = Some (h, (it', y)) /\ work h (inext d it) <= nprice v.

Definition open_cheap : Prop := forall l i v a,
  iwithin vnew vop reads pre ipre l [] [] ->
  nth_error (fst (iafter vnew vop l [] [])) i = Some (Some v) -> ipre a v ->
  exists h rs its xs c it,
    run [] (hiclient l [] []) = Some (h, ((rs, its), xs)) /\ nth_error rs i = Some (Some c) /\
    run h (iopen a c) = Some (h, it) /\ work h (iopen a c) <= oprice a v.

(** Threads that hold iterators while other threads change and drop versions that share
    cells with theirs, under every schedule.  A job: registers of the main thread, program. *)
Definition ijob_start (rs : list (option Coll)) (j : list nat * list icmd) :=
  hiclient (snd j) (hand rs (fst j)) [].
Definition iter_threads : Prop := forall main (jobs : list (list nat * list icmd)),
  within vnew vop pre main [] ->
  let vs := fst (sclient vnew vop main []) in
  Permutation (concat (map fst jobs)) (seq 0 (length vs)) ->
  Forall (fun j => iwithin vnew vop reads pre ipre (snd j) (hand vs (fst j)) []) jobs ->
  exists h rs,
    run [] (hclient hnew hclone hdrop hop main []) = Some (h, (rs, snd (sclient vnew vop main []))) /\
    forall sched,
      let cf := exec sched (h, map (ijob_start rs) jobs) in
      ~ In Fail (snd cf) /\
      (forall i j r, nth_error jobs i = Some j -> nth_error (snd cf) i = Some (Ret r) ->
         exists os, Forall2 fresh (opened vnew vop (snd j) (hand vs (fst j))) os /\
           snd r = siclient vnew vop snext (snd j) (hand vs (fst j)) [] os) /\
      (exists sched', Forall finished (snd (exec sched' cf))) /\
      work [] (hclient hnew hclone hdrop hop main []) + moves sched (h, map (ijob_start rs) jobs) <=
      price_of vnew vop nnew nclone ndrop price main [] +
      list_sum (map (fun j => iprice vnew vop nnew nclone ndrop price oprice nprice (snd j) (hand vs (fst j)) []) jobs).

Lemma kept_nil : kept [] [] [].
Proof. split; [trivial|]. split; [trivial|]. intros [|j]; reflexivity. Qed.
Lemma iters_nil : forall vs Gs, iters [] [] [] vs Gs.
Proof. intros vs Gs. split; [trivial|]. split; [trivial|]. intros [|j]; exact I. Qed.

Lemma kept_roots : forall rs vs Gs, kept rs vs Gs -> exists ts, concat Gs = map Tree ts /\ reg_roots roots rs = map pa ts.
Proof.
  induction rs as [|r rs IH]; intros [|v vs] [|G Gs] (L1 & L2 & P); cbn in L1, L2; try discriminate.
  - exists []. auto.
  - destruct (IH vs Gs) as (ts & E1 & E2).
    { split; [congruence|]. split; [congruence|]. intros j. exact (P (S j)). }
    specialize (P 0). cbn [nth] in P. unfold reg_roots in *. cbn [concat flat_map]. rewrite E1, E2.
    destruct r as [c|], v as [v|]; try contradiction.
    + destruct (rep_roots _ _ _ P) as (us & -> & ->). exists (us ++ ts). now rewrite !map_app.
    + unfold piece in P. rewrite P. exists ts. auto.
Qed.

Lemma iclient_runs : forall l, iwithin vnew vop reads pre ipre l [] [] ->
  exists h rs its os Gs ss,
    run [] (hiclient l [] []) = Some (h, ((rs, its), siclient vnew vop snext l [] [] os)) /\
    Forall2 fresh (opened vnew vop l []) os /\
    kept rs (fst (iafter vnew vop l [] [])) Gs /\
    iters its (snd (iafter vnew vop l [] [])) ss (fst (iafter vnew vop l [] [])) Gs /\
    WF kids h (concat Gs) /\
    work [] (hiclient l [] []) <= iprice vnew vop nnew nclone ndrop price oprice nprice l [] [].
Proof.
  intros l W.
  destruct (dear_run kids credit fine _ _ _ [] _ [] (iclient_dear l [] [] [] [] [] [] kept_nil (iters_nil _ _) W))
    as (h & [[rs its] xs] & G & E & (os & F & Ex & Gs & ss & -> & K & It) & Wf & _ & L);
    [apply WF_nil|apply all_fine_nil|].
  cbn [fst snd] in *. subst xs. rewrite app_nil_r in Wf. exists h, rs, its, os, Gs, ss. splits; trivial.
  change (live (@nil (option (cell C)))) with 0 in L. lia.
Qed.

Lemma looks_run : forall {A} (p : prog C A) n G F Q h, looks n p G Q -> WF kids h (G ++ F) ->
  exists x, run h p = Some (h, x) /\ Q x /\ work h p <= n.
Proof.
  intros A p. induction p; intros n0 G F Q h L W; cbn [looks] in L; try easy.
  - exists x. cbn. splits; trivial. lia.
  - destruct L as (n' & c & ts & -> & Lt & L).
    assert (Ph : phys kids h (PT a c ts)).
    { eapply lent_phys; [|exact W]. eapply lent_incl; [exact Lt|]. apply incl_appl, incl_refl. }
    rewrite phys_eq in Ph. destruct Ph as ((m & Ea) & _).
    destruct (H c n' G F Q h L W) as (x & E & q & Lw).
    exists x. cbn [run work]. rewrite Ea. splits; trivial. lia.
Qed.

Theorem iterates_ok : iterates.
Proof.
  intros l W. destruct (iclient_runs l W) as (h & rs & its & os & Gs & ss & E & F & K & _ & Wf & L).
  exists h, rs, its, os. splits; trivial.
  destruct (kept_roots _ _ _ K) as (ts & E1 & ->). apply WF_exact. congruence.
Qed.

Theorem next_cheap_ok : next_cheap.
Proof.
  intros l j i v d W El Ev. destruct (iclient_runs l W) as (h & rs & its & os & Gs & ss & E & F & K & It & Wf & _).
  destruct It as (L1 & L2 & P). specialize (P j). rewrite nth_of in El. rewrite El in P.
  destruct (nth j its None) as [it|] eqn:Ej; [|contradiction]. destruct (nth j ss None) as [s|]; [|contradiction].
  destruct P as (w & Ew & Hr). assert (w = v) by congruence. subst w.
  assert (N := kept_at _ _ _ i K). rewrite Ev in N. destruct N as (c & _ & _ & L).
  destruct (looks_run _ _ _ (concat (upd Gs i [])) _ h (next_looks v it s _ d Hr)) as ([it' y] & E' & _ & Lw).
  { eapply WF_perm; [exact (concat_take Gs i L)|exact Wf]. }
  exists h, rs, its, (siclient vnew vop snext l [] [] os), it, it', y. rewrite nth_of. splits; trivial.
Qed.

Theorem open_cheap_ok : open_cheap.
Proof.
  intros l i v a W Ev Pa. destruct (iclient_runs l W) as (h & rs & its & os & Gs & ss & E & F & K & It & Wf & _).
  assert (N := kept_at _ _ _ i K). rewrite Ev in N. destruct N as (c & Ec & r & L).
  destruct (looks_run _ _ _ (concat (upd Gs i [])) _ h (open_looks a c v _ r Pa)) as (it & E' & _ & Lw).
  { eapply WF_perm; [exact (concat_take Gs i L)|exact Wf]. }
  exists h, rs, its, (siclient vnew vop snext l [] [] os), c, it. splits; trivial.
Qed.

(** Threads. *)
Lemma dear_exec : forall {A} sched h (ps : list (prog C A)) Qs ss,
  threads_dear kids credit fine ps Qs ss -> WF kids h (owned_by ss) -> all_fine fine h ->
  exists ss', threads_dear kids credit fine (snd (exec sched (h, ps))) Qs ss'.
Proof.
  intros A sched. induction sched as [|i s IH]; intros h ps Qs ss T W Fh; [exists ss; exact T|].
  cbn [exec]. unfold cstep.
  destruct (nth_error ps i) as [p|] eqn:E; [|now apply IH with ss].
  destruct (dear_nth _ _ _ _ _ _ _ _ T E) as (Q & n & G & s1 & s2 & E1 & -> & D & R).
  assert (W' : WF kids h (G ++ (flat_map snd s1 ++ flat_map snd s2))).
  { eapply WF_perm; [|exact W]. unfold owned_by. rewrite flat_map_app. cbn [flat_map snd]. perm. }
  assert (X := dear_step _ _ _ _ _ _ _ _ _ D W' Fh).
  destruct (pstep h p) as [x| |h' p'] eqn:Ep; [|contradiction|].
  - now apply IH with (s1 ++ (n, G) :: s2).
  - destruct X as (n' & G' & D' & W2 & F2 & L).
    apply IH with (s1 ++ (n', G') :: s2); [now apply R| |trivial].
    eapply WF_perm; [|exact W2]. unfold owned_by. rewrite flat_map_app. cbn [flat_map snd]. perm.
Qed.

Lemma threads_dear_ok : forall {A} (ps : list (prog C A)) Qs ss, threads_dear kids credit fine ps Qs ss -> ~ In Fail ps.
Proof.
  intros A ps Qs ss T. induction T as [|p ps Q Qs n G ss D T IH]; intros []; [subst p; exact D|auto].
Qed.

Lemma main_kept : forall rs vs G, reps rep rs vs G -> exists Gs, G = concat Gs /\ kept rs vs Gs.
Proof.
  intros rs vs G R. destruct (reps_pieces _ _ _ _ R) as (Gs & -> & L1 & L2 & P). exists Gs. split; [trivial|].
  split; [congruence|]. split; [congruence|exact P].
Qed.

Lemma hand_kept : forall rs vs Gs js, kept rs vs Gs ->
  kept (hand rs js) (hand vs js) (map (fun j => nth j Gs []) js).
Proof.
  intros rs vs Gs js (_ & _ & P). unfold hand. split; [now rewrite !map_length|]. split; [now rewrite !map_length|].
  induction js as [|j js IH]; intros [|k]; cbn; try reflexivity; [apply P|apply IH].
Qed.

Lemma clone_dear_weak : forall c v G, rep c v G ->
  dear nclone (hclone c) G (fun c' G' => exists G1 G2, G' = G1 ++ G2 /\ rep c v G1 /\ rep c' v G2).
Proof. intros c v G r. eapply dear_post; [exact (clone_dear c v G r)|]. intros c' G' (G2 & -> & r2). eauto. Qed.

Theorem iter_threads_ok : iter_threads.
Proof.
  intros main jobs Wm vs Pj Wj.
  destruct (main_dear kids credit fine hnew hclone hdrop hop rep vnew vop pre nnew nclone ndrop price
              new_dear clone_dear_weak drop_dear op_dear main Wm) as (h & rs & G & E & R & W & Fh & L).
  exists h, rs. split; [exact E|]. fold vs in R.
  destruct (main_kept _ _ _ R) as (Gs & -> & K).
  set (cost := fun j : list nat * list icmd =>
     iprice vnew vop nnew nclone ndrop price oprice nprice (snd j) (hand vs (fst j)) []).
  set (ss := map (fun j => (cost j, concat (map (fun i => nth i Gs []) (fst j)))) jobs).
  set (Q := fun (j : list nat * list icmd) (r : list (option Coll) * list (option St) * list (Out + Ans)) (G' : list own) =>
     exists os, Forall2 fresh (opened vnew vop (snd j) (hand vs (fst j))) os /\
       snd r = siclient vnew vop snext (snd j) (hand vs (fst j)) [] os).
  assert (T : threads_dear kids credit fine (map (ijob_start rs) jobs) (map Q jobs) ss).
  { subst ss. clear -Wj K new_dear clone_dear drop_dear op_dear reads_gentle reads_same open_looks next_looks.
    induction Wj as [|j jobs Wi Wj IH]; cbn [map]; [constructor|].
    constructor; [|exact IH].
    eapply dear_post; [apply iclient_dear; [exact (hand_kept _ _ _ (fst j) K)|apply iters_nil|exact Wi]|].
    intros x G' (os & F & Ex & _). exists os. auto. }
  assert (Z : WF kids h (owned_by ss)).
  { eapply WF_perm; [|exact W]. destruct K as (L1 & L2 & _).
    rewrite concat_seq, L2. apply Permutation_sym.
    assert (Eo : owned_by ss = flat_map (fun i => nth i Gs []) (concat (map fst jobs))).
    { subst ss. unfold owned_by. clear. induction jobs as [|j jobs IH]; cbn; [trivial|].
      rewrite flat_map_app, <- IH. cbn [owned_by flat_map snd]. now rewrite (flat_map_concat_map _ (fst j)). }
    rewrite Eo. apply Permutation_flat_map. exact Pj. }
  intros sched cf.
  destruct (dear_exec sched h _ _ _ T Z Fh) as (ss' & T'). fold cf in T'.
  split; [exact (threads_dear_ok _ _ _ T')|]. split; [|split].
  - intros i j r Ej Er. destruct (dear_nth _ _ _ _ _ _ _ _ T' Er) as (Q' & n & G & s1 & s2 & EQ & -> & D & _).
    rewrite nth_error_map, Ej in EQ. cbn in EQ. injection EQ as <-.
    destruct D as (G' & P & H). exact H.
  - destruct (finish_all (length (snd cf)) (fst cf) (snd cf) (le_n _)) as (s & Ls & Fs).
    exists s. rewrite (surjective_pairing cf).
    apply Forall_forall. intros p I. apply In_nth_error in I. destruct I as (i & Ei).
    destruct (Fs i p) as [D|D]; trivial.
    + rewrite <- Ls. apply nth_error_Some. congruence.
    + subst p. exfalso. destruct (dear_exec (sched ++ s) h _ _ _ T Z Fh) as (ss2 & T2).
      apply (threads_dear_ok _ _ _ T2). rewrite exec_app. fold cf.
      rewrite (surjective_pairing cf). eapply nth_error_In; eauto.
  - assert (X := dear_moves kids credit fine sched h _ _ _ T Z Fh).
    assert (Eb : budget ss = list_sum (map cost jobs)) by (subst ss; unfold budget; now rewrite map_map).
    rewrite Eb in X. lia.
Qed.

Definition holds_iterators : Prop := iterates /\ (next_cheap /\ open_cheap) /\ iter_threads.
Theorem holds_iterators_ok : holds_iterators.
Proof. split; [exact iterates_ok|]. split; [split; [exact next_cheap_ok|exact open_cheap_ok]|exact iter_threads_ok]. Qed.
End Iter.

Arguments icmd Op Arg Dir : clear implicits.
Arguments IDo {Op Arg Dir}.
Arguments IOpen {Op Arg Dir}.
Arguments INext {Op Arg Dir}.
Arguments IClose {Op Arg Dir}.

(** ** One call of an iterator *)
Section Steps.
Context {C St St' A : Type}.

(** The size hint, then [next] or ([d] true) [next_back]. *)
Definition step2 (next back : St -> prog C (option A * St)) (hint : St -> res nat) (d : bool) (it : St)
  : prog C (St * (nat * option A)) :=
  let* h := lift (hint it) in
  let* (o, it') := (if d then back it else next it) in
  Ret (it', (h, o)).

(** The size hint, then [next]. *)
Definition step1 (next : St -> prog C (option A * St)) (hint : St -> res nat) (d : unit) (it : St)
  : prog C (St * (nat * option A)) :=
  let* h := lift (hint it) in
  let* (o, it') := next it in
  Ret (it', (h, o)).

(** The specification: the sequence still to come, taken from either end. *)
Definition snext2 (d : bool) (l : list A) : list A * (nat * option A) :=
  if d then (removelast l, (length l, last_error l)) else (tl l, (length l, hd_error l)).
Definition snext1 (d : unit) (l : list A) : list A * (nat * option A) := (tl l, (length l, hd_error l)).

Context (kids : C -> list addr) (R : St -> St' -> Prop) (G : list (@own C)) (pot : St' -> nat) (top : nat).

Lemma step2_looks : forall next back hint next' back' hint',
  (forall s s', R s s' -> hint s = hint' s') ->
  (forall s s', R s s' -> follows R G pot top (next s) (next' s') s') ->
  (forall s s', R s s' -> follows R G pot top (back s) (back' s') s') ->
  forall d it s' l, R it s' -> (forall ds, runs2 next' back' hint' ds s' = Ok (de_spec ds l)) ->
  looks top (step2 next back hint d it) G
    (fun r => snd r = snd (snext2 d l) /\
       exists s'', R (fst r) s'' /\ forall ds, runs2 next' back' hint' ds s'' = Ok (de_spec ds (fst (snext2 d l)))).
Proof.
  intros next back hint next' back' hint' Hh Hn Hb d it s' l HR E. unfold step2. rewrite (Hh _ _ HR).
  assert (F : follows R G pot top (if d then back it else next it) (if d then back' s' else next' s') s')
    by (destruct d; auto).
  assert (E1 := E [d]). cbn [runs2] in E1.
  destruct (hint' s') as [h| |] eqn:Eh; cbn [bind] in E1; try discriminate.
  destruct (if d then back' s' else next' s') as [[o s'']| |] eqn:Es; cbn [bind] in E1; try discriminate.
  injection E1 as E1. cbn [lift pbind].
  assert (E2 : forall ds, runs2 next' back' hint' ds s'' = Ok (de_spec ds (fst (snext2 d l)))).
  { intros ds. assert (E2 := E (d :: ds)). cbn [runs2] in E2. rewrite Eh in E2. cbn [bind] in E2. rewrite Es in E2. cbn [bind] in E2.
    destruct (runs2 next' back' hint' ds s'') as [r| |]; cbn [bind] in E2; try discriminate.
    injection E2 as E2. destruct d; cbn [de_spec snext2 fst] in *; now injection E2 as _ _ ->. }
  destruct (F o s'' eq_refl) as (n & L & _ & B). eapply looks_le; [|exact B]. rewrite <- (Nat.add_0_r n).
  eapply looks_bind; [exact L|]. intros [o' t] [Eo Rt]. cbn [looks fst snd] in *. subst o'. split; [|eauto].
  destruct d; cbn [de_spec snext2 snd] in *; congruence.
Qed.

Lemma step1_looks : forall next hint next' hint',
  (forall s s', R s s' -> hint s = hint' s') ->
  (forall s s', R s s' -> follows R G pot top (next s) (next' s') s') ->
  forall d it s' l, R it s' -> (forall k, runs next' hint' k s' = Ok (fwd_spec k l)) ->
  looks top (step1 next hint d it) G
    (fun r => snd r = snd (snext1 d l) /\
       exists s'', R (fst r) s'' /\ forall k, runs next' hint' k s'' = Ok (fwd_spec k (fst (snext1 d l)))).
Proof.
  intros next hint next' hint' Hh Hn d it s' l HR E. unfold step1. rewrite (Hh _ _ HR).
  assert (F := Hn _ _ HR).
  assert (E1 := E 1). cbn [runs] in E1.
  destruct (hint' s') as [h| |] eqn:Eh; cbn [bind] in E1; try discriminate.
  destruct (next' s') as [[o s'']| |] eqn:Es; cbn [bind] in E1; try discriminate.
  injection E1 as E1 E1'. cbn [lift pbind].
  assert (E2 : forall k, runs next' hint' k s'' = Ok (fwd_spec k (fst (snext1 d l)))).
  { intros k. assert (E2 := E (S k)). cbn [runs] in E2. rewrite Eh in E2. cbn [bind] in E2. rewrite Es in E2. cbn [bind] in E2.
    destruct (runs next' hint' k s'') as [r| |]; cbn [bind] in E2; try discriminate.
    injection E2 as _ _ ->. reflexivity. }
  destruct (F o s'' eq_refl) as (n & L & _ & B). eapply looks_le; [|exact B]. rewrite <- (Nat.add_0_r n).
  eapply looks_bind; [exact L|]. intros [o' t] [Eo Rt]. cbn [looks fst snd] in *. subst o'. split; [|eauto].
  cbn [snext1 snd]. congruence.
Qed.
End Steps.
