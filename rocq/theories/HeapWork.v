(** * How many steps programs take (for C50)

    Every primitive of HeapModel.v counts as one step.  Time spent on freeing
    cells is paid for in advance: an allocation costs [credit] more than its one
    step, and a primitive that frees a cell gives [credit] back.  With
    [credit = 0] a bound is a bound on the call at hand; with enough credit for
    the drop glue of one cell, it is an amortised bound.

    [fine]: a property every cell of the heap has, such as a bound on the number
    of pointers in it. *)
From Coq Require Import List Arith Lia Bool Permutation.
From Verif Require Import PermSolve HeapModel HeapProofs HeapSafe HeapLooks HeapClient HeapWorld.
Import ListNotations.
Local Open Scope prog_scope.

Section Measures.
Context {C : Type}.

(** The number of steps of a run of one thread. *)
Fixpoint work {A} (h : heap C) (p : prog C A) {struct p} : nat :=
  match p with
  | Ret _ => 0
  | Fail => 0
  | New c k => S (work (h ++ [Some (Full 1 c)]) (k (length h)))
  | Reserve k => S (work (h ++ [Some Hole]) (k (length h)))
  | Clone a k =>
      match get h a with
      | Some (Full n c) => S (work (set h a (Some (Full (S n) c))) k)
      | _ => 0
      end
  | Read a k =>
      match get h a with
      | Some (Full _ c) => S (work h (k c))
      | _ => 0
      end
  | Dec a k =>
      match get h a with
      | Some (Full 0 _) => 0
      | Some (Full 1 c) => S (work (set h a None) (k (Some c)))
      | Some (Full (S n) c) => S (work (set h a (Some (Full n c))) (k None))
      | _ => 0
      end
  | Take a k =>
      match get h a with
      | Some (Full 1 c) => S (work (set h a (Some Hole)) (k (Some c)))
      | Some (Full _ _) => S (work h (k None))
      | _ => 0
      end
  | Fill a c k =>
      match get h a with
      | Some Hole => S (work (set h a (Some (Full 1 c))) k)
      | _ => 0
      end
  | Unwrap a k =>
      match get h a with
      | Some (Full 1 c) => S (work (set h a None) (k (Some c)))
      | Some (Full _ _) => S (work h (k None))
      | _ => 0
      end
  | Enter k => S (work h k)
  | Leave k => S (work h k)
  end.

(** The number of steps made under a schedule, by all threads. *)
Fixpoint moves {A} (sched : list nat) (cf : heap C * list (prog C A)) : nat :=
  match sched with
  | [] => 0
  | i :: s =>
      (match nth_error (snd cf) i with
       | Some p => match pstep (fst cf) p with Step _ _ => 1 | _ => 0 end
       | None => 0
       end) + moves s (cstep i cf)
  end.

(** Cells not freed. *)
Definition live (h : heap C) : nat := length (filter (fun x => match x with Some _ => true | None => false end) h).

Lemma work_step : forall {A} (p : prog C A) h,
  work h p = match pstep h p with Step h' p' => S (work h' p') | _ => 0 end.
Proof.
  intros A p h. destruct p; cbn; trivial; destruct (get h a) as [[[|[|m]] c'|]|]; trivial.
Qed.

Lemma live_app : forall h x, live (h ++ [Some x]) = S (live h).
Proof. intros h x. unfold live. rewrite filter_app, app_length. cbn. lia. Qed.

Lemma live_set : forall h a x, get h a <> None ->
  live (set h a (Some x)) = live h /\ S (live (set h a None)) = live h.
Proof.
  unfold live, get. induction h as [|y h IH]; intros [|a] x N; cbn in *; try congruence.
  - destruct y; [cbn; auto|congruence].
  - destruct (IH a x N) as [E1 E2]. destruct y; cbn [length]; lia.
Qed.
End Measures.

Section Pays.
Context {C : Type} (kids : C -> list addr) (credit : nat) (fine : C -> Prop).
Notation own := (@own C).

(** [pays n p R]: whatever fine cells it meets, [p] makes at most [n] steps, an
    allocation counted with its credit and the credits of the cells it frees
    added; it stores fine cells only; it returns something in [R]. *)
Fixpoint pays {A} (n : nat) (p : prog C A) (R : A -> Prop) : Prop :=
  match p with
  | Ret x => R x
  | Fail => True
  | New c k => exists n', n = S (credit + n') /\ fine c /\ forall a, pays n' (k a) R
  | Reserve k => exists n', n = S (credit + n') /\ forall a, pays n' (k a) R
  | Clone a k => exists n', n = S n' /\ pays n' k R
  | Read a k => exists n', n = S n' /\ forall c, fine c -> pays n' (k c) R
  | Dec a k => exists n', n = S n' /\ pays n' (k None) R /\ forall c, fine c -> pays (credit + n') (k (Some c)) R
  | Take a k => exists n', n = S n' /\ pays n' (k None) R /\ forall c, fine c -> pays n' (k (Some c)) R
  | Fill a c k => exists n', n = S n' /\ fine c /\ pays n' k R
  | Unwrap a k => exists n', n = S n' /\ pays n' (k None) R /\ forall c, fine c -> pays (credit + n') (k (Some c)) R
  | Enter k => exists n', n = S n' /\ pays n' k R
  | Leave k => exists n', n = S n' /\ pays n' k R
  end.

Lemma pays_mono : forall {A} (p : prog C A) n m (R R' : A -> Prop),
  n <= m -> (forall x, R x -> R' x) -> pays n p R -> pays m p R'.
Proof.
  intros A p. induction p; intros n m R R' L W; cbn [pays]; auto.
  - intros (n' & -> & F & S). exists (m - (1 + credit)). split; [lia|]. split; trivial. intros a.
    eapply H; [| |apply S]; [lia|trivial].
  - intros (n' & -> & S). exists (m - (1 + credit)). split; [lia|]. intros a. eapply H; [| |apply S]; [lia|trivial].
  - intros (n' & -> & S). exists (m - 1). split; [lia|]. eapply IHp; [| |apply S]; [lia|trivial].
  - intros (n' & -> & S). exists (m - 1). split; [lia|]. intros c F. eapply H; [| |now apply S]; [lia|trivial].
  - intros (n' & -> & S1 & S2). exists (m - 1). split; [lia|]. split.
    + eapply H; [| |apply S1]; [lia|trivial].
    + intros c F. eapply H; [| |now apply S2]; [lia|trivial].
  - intros (n' & -> & S1 & S2). exists (m - 1). split; [lia|]. split.
    + eapply H; [| |apply S1]; [lia|trivial].
    + intros c F. eapply H; [| |now apply S2]; [lia|trivial].
  - intros (n' & -> & F & S). exists (m - 1). split; [lia|]. split; trivial. eapply IHp; [| |apply S]; [lia|trivial].
  - intros (n' & -> & S1 & S2). exists (m - 1). split; [lia|]. split.
    + eapply H; [| |apply S1]; [lia|trivial].
    + intros c F. eapply H; [| |now apply S2]; [lia|trivial].
  - intros (n' & -> & S). exists (m - 1). split; [lia|]. eapply IHp; [| |apply S]; [lia|trivial].
  - intros (n' & -> & S). exists (m - 1). split; [lia|]. eapply IHp; [| |apply S]; [lia|trivial].
Qed.

Lemma pays_le : forall {A} (p : prog C A) n m R, pays n p R -> n <= m -> pays m p R.
Proof. intros. eapply pays_mono; eauto. Qed.

Lemma pays_bind : forall {A B} (p : prog C A) (f : A -> prog C B) n m R R',
  pays n p R -> (forall x, R x -> pays m (f x) R') -> pays (n + m) (pbind p f) R'.
Proof.
  intros A B p f. induction p; intros n m R R' S F; cbn [pays pbind] in *; trivial.
  - eapply pays_le; [now apply F|lia].
  - destruct S as (n' & -> & Fc & S). exists (n' + m). split; [lia|]. split; trivial. intros a. eauto.
  - destruct S as (n' & -> & S). exists (n' + m). split; [lia|]. intros a. eauto.
  - destruct S as (n' & -> & S). exists (n' + m). split; [lia|]. eauto.
  - destruct S as (n' & -> & S). exists (n' + m). split; [lia|]. intros c Fc. eauto.
  - destruct S as (n' & -> & S1 & S2). exists (n' + m). split; [lia|]. split; [eauto|].
    intros c Fc. rewrite Nat.add_assoc. eauto.
  - destruct S as (n' & -> & S1 & S2). exists (n' + m). split; [lia|]. split; [eauto|]. intros c Fc. eauto.
  - destruct S as (n' & -> & Fc & S). exists (n' + m). split; [lia|]. split; trivial. eauto.
  - destruct S as (n' & -> & S1 & S2). exists (n' + m). split; [lia|]. split; [eauto|].
    intros c Fc. rewrite Nat.add_assoc. eauto.
  - destruct S as (n' & -> & S). exists (n' + m). split; [lia|]. eauto.
  - destruct S as (n' & -> & S). exists (n' + m). split; [lia|]. eauto.
Qed.

(** The rule as it is used. *)
Lemma pays_seq : forall {A B} (p : prog C A) (f : A -> prog C B) n1 n2 n R R',
  pays n1 p R -> n1 + n2 <= n -> (forall x, R x -> pays n2 (f x) R') -> pays n (pbind p f) R'.
Proof. intros. eapply pays_le; [eapply pays_bind; eauto|trivial]. Qed.

(** The rule for each primitive as it is used: spend, then go on with the rest. *)
Lemma pay_ret : forall {A} n (x : A) (R : A -> Prop), R x -> pays n (Ret x) R.
Proof. trivial. Qed.
Lemma pay_fail : forall {A} n (R : A -> Prop), pays n Fail R.
Proof. intros. exact I. Qed.
Lemma pay_new : forall {A} n c (k : addr -> prog C A) R,
  1 + credit <= n -> fine c -> (forall a, pays (n - (1 + credit)) (k a) R) -> pays n (New c k) R.
Proof. intros A n c k R L F S. exists (n - (1 + credit)). split; [lia|auto]. Qed.
Lemma pay_reserve : forall {A} n (k : addr -> prog C A) R,
  1 + credit <= n -> (forall a, pays (n - (1 + credit)) (k a) R) -> pays n (Reserve k) R.
Proof. intros A n k R L S. exists (n - (1 + credit)). split; [lia|auto]. Qed.
Lemma pay_clone : forall {A} n a (k : prog C A) R, 1 <= n -> pays (n - 1) k R -> pays n (Clone a k) R.
Proof. intros A n a k R L S. exists (n - 1). split; [lia|auto]. Qed.
Lemma pay_read : forall {A} n a (k : C -> prog C A) R,
  1 <= n -> (forall c, fine c -> pays (n - 1) (k c) R) -> pays n (Read a k) R.
Proof. intros A n a k R L S. exists (n - 1). split; [lia|auto]. Qed.
Lemma pay_take : forall {A} n a (k : option C -> prog C A) R,
  1 <= n -> pays (n - 1) (k None) R -> (forall c, fine c -> pays (n - 1) (k (Some c)) R) ->
  pays n (Take a k) R.
Proof. intros A n a k R L S1 S2. exists (n - 1). split; [lia|auto]. Qed.
Lemma pay_fill : forall {A} n a c (k : prog C A) R,
  1 <= n -> fine c -> pays (n - 1) k R -> pays n (Fill a c k) R.
Proof. intros A n a c k R L F S. exists (n - 1). split; [lia|auto]. Qed.
Lemma pay_unwrap : forall {A} n a (k : option C -> prog C A) R,
  1 <= n -> pays (n - 1) (k None) R -> (forall c, fine c -> pays (credit + (n - 1)) (k (Some c)) R) ->
  pays n (Unwrap a k) R.
Proof. intros A n a k R L S1 S2. exists (n - 1). split; [lia|auto]. Qed.
Lemma pay_call : forall {A B} n n1 (p : prog C A) (f : A -> prog C B) R R',
  pays n1 p R -> n1 <= n -> (forall x, R x -> pays (n - n1) (f x) R') -> pays n (pbind p f) R'.
Proof. intros. eapply pays_seq; eauto. lia. Qed.

Lemma pay_clone_all : forall {A} l n (k : prog C A) R,
  length l <= n -> pays (n - length l) k R -> pays n (clone_all l k) R.
Proof.
  intros A l. induction l as [|a l IH]; intros n k R L S; cbn [clone_all length] in *.
  - now rewrite Nat.sub_0_r in S.
  - apply pay_clone; [lia|]. apply IH; [lia|]. now replace (n - 1 - length l) with (n - (1 + length l)) by lia.
Qed.

(** ** Dropping *)
(** With credit, dropping a pointer costs one step. *)
Lemma pays_each : forall (p : addr -> prog C unit) n l,
  (forall a, pays n (p a) (fun _ => True)) -> pays (length l * n) (each p l) (fun _ => True).
Proof.
  intros p n l Pp. induction l as [|a l IH]; cbn [each length]; [exact I|].
  cbn [Nat.mul]. eapply pays_bind; [apply Pp|]. intros _ _. exact IH.
Qed.

Lemma pays_drop : (forall c, fine c -> length (kids c) + 2 <= credit) ->
  forall f a, pays 1 (drop_ptr kids f a) (fun _ => True).
Proof.
  intros Gl. induction f as [|f IH]; intros a; cbn [drop_ptr pays]; [trivial|].
  exists 0. split; [trivial|]. split; [exact I|]. intros c Fc. specialize (Gl c Fc).
  cbn [pays]. exists (credit - 1). split; [lia|].
  eapply pays_seq with (n2 := 1); [apply pays_each; exact IH|lia|].
  intros _ _. exists 0. split; [trivial|exact I].
Qed.

(** Without, the nested calls count: [f] levels with [b] pointers each. *)
Fixpoint raw (b f : nat) : nat := match f with 0 => 0 | S f' => 3 + b * raw b f' end.
Lemma pays_drop_raw : forall b, (forall c, fine c -> length (kids c) <= b) ->
  forall f a, pays (raw b f) (drop_ptr kids f a) (fun _ => True).
Proof.
  intros b Gl. induction f as [|f IH]; intros a; cbn [drop_ptr pays raw]; [trivial|].
  exists (2 + b * raw b f). split; [lia|]. split; [exact I|]. intros c Fc. specialize (Gl c Fc).
  exists (credit + (1 + b * raw b f)). split; [lia|].
  eapply pays_seq with (n2 := 1); [apply pays_each; exact IH| |].
  - assert (length (kids c) * raw b f <= b * raw b f) by now apply Nat.mul_le_mono_r. lia.
  - intros _ _. exists 0. split; [trivial|exact I].
Qed.

(** [make_mut], when cells hold at most [b] pointers and dropping the old
    pointer costs [d]. *)
Lemma pays_make_mut : forall b d,
  (forall c, fine c -> length (kids c) <= b) -> (forall a, pays d (drop_ptr kids 2 a) (fun _ => True)) ->
  forall a, pays (3 + b + credit + d) (make_mut kids a) (fun r => fine (snd r)).
Proof.
  intros b d Gl D a. unfold make_mut. apply pay_take; [lia| |intros c F; exact F].
  apply pay_read; [lia|]. intros c F. specialize (Gl c F). apply pay_clone_all; [lia|].
  apply pay_reserve; [lia|]. intros a'. eapply pay_call; [apply D|lia|]. intros _ _. exact F.
Qed.

(** ** Soundness in a run *)
Definition all_fine (h : heap C) : Prop := forall a n c, get h a = Some (Full n c) -> fine c.

Lemma all_fine_app : forall h c, all_fine h -> fine c -> all_fine (h ++ [Some (Full 1 c)]).
Proof.
  intros h c F Fc a n d E. unfold get in E. destruct (Nat.lt_ge_cases a (length h)) as [L|L].
  - rewrite nth_error_app1 in E by trivial. now apply (F a n d).
  - rewrite nth_error_app2 in E by trivial. destruct (a - length h) as [|[|b]]; cbn in E; try discriminate.
    now injection E as <- <-.
Qed.
Lemma all_fine_hole : forall h, all_fine h -> all_fine (h ++ [Some Hole]).
Proof.
  intros h F a n d E. unfold get in E. destruct (Nat.lt_ge_cases a (length h)) as [L|L].
  - rewrite nth_error_app1 in E by trivial. now apply (F a n d).
  - rewrite nth_error_app2 in E by trivial. destruct (a - length h) as [|[|b]]; cbn in E; discriminate.
Qed.
Lemma all_fine_set : forall h a x, all_fine h ->
  match x with Some (Full _ c) => fine c | _ => True end -> all_fine (set h a x).
Proof.
  unfold all_fine, get. induction h as [|y h IH]; intros a x F Fx b n c E.
  - now destruct b.
  - destruct a as [|a]; destruct b as [|b]; cbn [set nth_error] in E.
    + destruct x as [[m d|]|]; try discriminate. now injection E as <- <-.
    + apply (F (S b) n c). exact E.
    + apply (F 0 n c). exact E.
    + refine (IH a x _ Fx b n c E). intros b' n' c' E'. exact (F (S b') n' c' E').
Qed.
Lemma all_fine_nil : all_fine [].
Proof. intros a n c E. destruct a; discriminate. Qed.

(** One step; [n] is what is left to spend. *)
Lemma pays_step : forall {A} (p : prog C A) n R h h' p',
  pays n p R -> all_fine h -> pstep h p = Step h' p' ->
  exists n', pays n' p' R /\ all_fine h' /\ S n' + credit * live h' <= n + credit * live h.
Proof.
  intros A p n R h h' p' S F E. destruct p; cbn [pays pstep] in *; try discriminate.
  - injection E as <- <-. destruct S as (n' & -> & Fc & S). exists n'. split; [apply S|].
    split; [now apply all_fine_app|]. rewrite live_app. lia.
  - injection E as <- <-. destruct S as (n' & -> & S). exists n'. split; [apply S|].
    split; [now apply all_fine_hole|]. rewrite live_app. lia.
  - destruct (get h a) as [[m c|]|] eqn:G; try discriminate. injection E as <- <-.
    destruct S as (n' & -> & S). exists n'. split; [apply S|].
    split; [apply all_fine_set; [trivial|exact (F _ _ _ G)]|].
    destruct (live_set h a (Full (Datatypes.S m) c)) as [-> _]; [congruence|]. lia.
  - destruct (get h a) as [[m c|]|] eqn:G; try discriminate. injection E as <- <-.
    destruct S as (n' & -> & S). exists n'. split; [apply S; exact (F _ _ _ G)|]. split; [trivial|lia].
  - destruct (get h a) as [[[|[|m]] c|]|] eqn:G; try discriminate; injection E as <- <-;
      destruct S as (n' & -> & S1 & S2).
    + exists (credit + n'). split; [apply S2; exact (F _ _ _ G)|].
      split; [now apply all_fine_set|].
      destruct (live_set h a Hole) as [_ L]; [congruence|]. nia.
    + exists n'. split; [exact S1|]. split; [apply all_fine_set; [trivial|exact (F _ _ _ G)]|].
      destruct (live_set h a (Full (Datatypes.S m) c)) as [-> _]; [congruence|]. lia.
  - destruct (get h a) as [[[|[|m]] c|]|] eqn:G; try discriminate; injection E as <- <-;
      destruct S as (n' & -> & S1 & S2).
    + exists n'. split; [exact S1|]. split; [trivial|lia].
    + exists n'. split; [apply S2; exact (F _ _ _ G)|]. split; [now apply all_fine_set|].
      destruct (live_set h a Hole) as [-> _]; [congruence|]. lia.
    + exists n'. split; [exact S1|]. split; [trivial|lia].
  - destruct (get h a) as [[m d|]|] eqn:G; try discriminate. injection E as <- <-.
    destruct S as (n' & -> & Fc & S). exists n'. split; [exact S|]. split; [now apply all_fine_set|].
    destruct (live_set h a (Full 1 c)) as [-> _]; [congruence|]. lia.
  - destruct (get h a) as [[[|[|m]] c|]|] eqn:G; try discriminate; injection E as <- <-;
      destruct S as (n' & -> & S1 & S2).
    + exists n'. split; [exact S1|]. split; [trivial|lia].
    + exists (credit + n'). split; [apply S2; exact (F _ _ _ G)|]. split; [now apply all_fine_set|].
      destruct (live_set h a Hole) as [_ L]; [congruence|]. nia.
    + exists n'. split; [exact S1|]. split; [trivial|lia].
  - injection E as <- <-. destruct S as (n' & -> & S). exists n'. split; [exact S|]. split; [trivial|lia].
  - injection E as <- <-. destruct S as (n' & -> & S). exists n'. split; [exact S|]. split; [trivial|lia].
Qed.

(** ** Together with [safe]: what is owned, and what is left to spend *)
Fixpoint dear {A} (n : nat) (p : prog C A) (G : list own) (Q : A -> list own -> Prop) : Prop :=
  match p with
  | Ret x => exists G', Permutation G G' /\ Q x G'
  | Fail => False
  | New c k =>
      exists n' ts G', n = S (credit + n') /\ fine c /\ Permutation G (map Tree ts ++ G') /\ kids c = map pa ts /\
      forall a, dear n' (k a) (Tree (PT a c ts) :: G') Q
  | Reserve k => exists n', n = S (credit + n') /\ forall a, dear n' (k a) (Held a :: G) Q
  | Clone a k => exists n' c ts, n = S n' /\ lent (PT a c ts) G /\ dear n' k (Tree (PT a c ts) :: G) Q
  | Read a k =>
      exists n' c ts, n = S n' /\ lent (PT a c ts) G /\ (shaped kids (PT a c ts) -> fine c -> dear n' (k c) G Q)
  | Dec a k =>
      exists n' c ts G', n = S n' /\ Permutation G (Tree (PT a c ts) :: G') /\ dear n' (k None) G' Q /\
      (shaped kids (PT a c ts) -> alone a G' -> fine c -> dear (credit + n') (k (Some c)) (map Tree ts ++ G') Q)
  | Take a k =>
      exists n' c ts G', n = S n' /\ Permutation G (Tree (PT a c ts) :: G') /\ dear n' (k None) G Q /\
      (shaped kids (PT a c ts) -> alone a G' -> fine c -> dear n' (k (Some c)) (Held a :: map Tree ts ++ G') Q)
  | Fill a c k =>
      exists n' ts G', n = S n' /\ fine c /\ Permutation G (Held a :: map Tree ts ++ G') /\ kids c = map pa ts /\
      dear n' k (Tree (PT a c ts) :: G') Q
  | Unwrap a k =>
      exists n' c ts G', n = S n' /\ Permutation G (Tree (PT a c ts) :: G') /\ dear n' (k None) G Q /\
      (shaped kids (PT a c ts) -> alone a G' -> fine c -> dear (credit + n') (k (Some c)) (map Tree ts ++ G') Q)
  | Enter k => exists n', n = S n' /\ dear n' k G Q
  | Leave k => exists n', n = S n' /\ dear n' k G Q
  end.

Lemma safe_pays : forall {A} (p : prog C A) m n G Q R,
  safe kids m p G Q -> pays n p R -> dear n p G Q.
Proof.
  intros A p. induction p; intros m n G Q R S P; cbn [safe pays dear] in *.
  - exact S.
  - exact S.
  - destruct S as (m' & ts & G' & -> & P1 & E & S). destruct P as (n' & -> & Fc & P).
    exists n', ts, G'. splits; trivial. intros a. eauto.
  - destruct S as (m' & -> & S). destruct P as (n' & -> & P). exists n'. split; trivial. intros a. eauto.
  - destruct S as (c & ts & L & S). destruct P as (n' & -> & P). exists n', c, ts. splits; trivial. eauto.
  - destruct S as (c & ts & L & S). destruct P as (n' & -> & P). exists n', c, ts. splits; trivial. eauto.
  - destruct S as (c & ts & G' & P1 & S1 & S2). destruct P as (n' & -> & Q1 & Q2). exists n', c, ts, G'.
    splits; trivial; eauto.
  - destruct S as (c & ts & G' & P1 & S1 & S2). destruct P as (n' & -> & Q1 & Q2). exists n', c, ts, G'.
    splits; trivial; eauto.
  - destruct S as (ts & G' & P1 & E & S). destruct P as (n' & -> & Fc & P). exists n', ts, G'.
    splits; trivial; eauto.
  - destruct S as (c & ts & G' & P1 & S1 & S2). destruct P as (n' & -> & Q1 & Q2). exists n', c, ts, G'.
    splits; trivial; eauto.
  - destruct P as (n' & -> & P). exists n'. eauto.
  - destruct P as (n' & -> & P). exists n'. eauto.
Qed.

Lemma looks_dear : forall {A} (p : prog C A) n G Q (Q' : A -> list own -> Prop),
  looks n p G Q -> (forall x, Q x -> Q' x G) -> dear n p G Q'.
Proof.
  intros A p. induction p; intros n G Q Q' L W; cbn [looks dear] in *; try easy.
  - exists G. auto.
  - destruct L as (n' & c & ts & -> & L & S). exists n', c, ts. splits; trivial. eauto.
Qed.

Lemma dear_perm : forall {A} (p : prog C A) n G G' Q, Permutation G G' -> dear n p G Q -> dear n p G' Q.
Proof.
  intros A p. induction p; intros n G G' Q P; cbn [dear]; assert (P' := Permutation_sym P).
  - intros (G1 & P1 & q). exists G1. split; trivial. eapply Permutation_trans; eauto.
  - easy.
  - intros (n' & ts & G1 & -> & Fc & P1 & K & S). exists n', ts, G1. splits; trivial.
    eapply Permutation_trans; eauto.
  - intros (n' & -> & S). exists n'. split; trivial. intros a. eapply H; [|apply S]. now constructor.
  - intros (n' & c & ts & -> & L & S). exists n', c, ts. splits; trivial.
    + eapply lent_incl; eauto using perm_incl.
    + eapply IHp; [|exact S]. now constructor.
  - intros (n' & c & ts & -> & L & S). exists n', c, ts. splits; trivial.
    + eapply lent_incl; eauto using perm_incl.
    + intros Sh Fc. eapply H; [|now apply S]. trivial.
  - intros (n' & c & ts & G1 & -> & P1 & S1 & S2). exists n', c, ts, G1. splits; trivial.
    eapply Permutation_trans; eauto.
  - intros (n' & c & ts & G1 & -> & P1 & S1 & S2). exists n', c, ts, G1. splits; trivial.
    + eapply Permutation_trans; eauto.
    + eapply H; eauto.
  - intros (n' & ts & G1 & -> & Fc & P1 & K & S1). exists n', ts, G1. splits; trivial.
    eapply Permutation_trans; eauto.
  - intros (n' & c & ts & G1 & -> & P1 & S1 & S2). exists n', c, ts, G1. splits; trivial.
    + eapply Permutation_trans; eauto.
    + eapply H; eauto.
  - intros (n' & -> & S). exists n'. eauto.
  - intros (n' & -> & S). exists n'. eauto.
Qed.

Lemma dear_le : forall {A} (p : prog C A) n m G Q, dear n p G Q -> n <= m -> dear m p G Q.
Proof.
  intros A p. induction p; intros n m G Q; cbn [dear]; auto.
  - intros (n' & ts & G1 & -> & Fc & P1 & K & S) L. exists (m - (1 + credit)), ts, G1. splits; trivial; [lia|].
    intros a. eapply H; [apply S|lia].
  - intros (n' & -> & S) L. exists (m - (1 + credit)). split; [lia|]. intros a. eapply H; [apply S|lia].
  - intros (n' & c & ts & -> & Lt & S) L. exists (m - 1), c, ts. splits; trivial; [lia|].
    eapply IHp; [exact S|lia].
  - intros (n' & c & ts & -> & Lt & S) L. exists (m - 1), c, ts. splits; trivial; [lia|].
    intros Sh Fc. eapply H; [now apply S|lia].
  - intros (n' & c & ts & G1 & -> & P1 & S1 & S2) L. exists (m - 1), c, ts, G1. splits; trivial; [lia| |].
    + eapply H; [exact S1|lia].
    + intros Sh Al Fc. eapply H; [now apply S2|lia].
  - intros (n' & c & ts & G1 & -> & P1 & S1 & S2) L. exists (m - 1), c, ts, G1. splits; trivial; [lia| |].
    + eapply H; [exact S1|lia].
    + intros Sh Al Fc. eapply H; [now apply S2|lia].
  - intros (n' & ts & G1 & -> & Fc & P1 & K & S) L. exists (m - 1), ts, G1. splits; trivial; [lia|].
    eapply IHp; [exact S|lia].
  - intros (n' & c & ts & G1 & -> & P1 & S1 & S2) L. exists (m - 1), c, ts, G1. splits; trivial; [lia| |].
    + eapply H; [exact S1|lia].
    + intros Sh Al Fc. eapply H; [now apply S2|lia].
  - intros (n' & -> & S) L. exists (m - 1). split; [lia|]. eapply IHp; [exact S|lia].
  - intros (n' & -> & S) L. exists (m - 1). split; [lia|]. eapply IHp; [exact S|lia].
Qed.

Lemma dear_bind : forall {A B} (p : prog C A) (f : A -> prog C B) n1 n2 G F Q1 Q2,
  dear n1 p G Q1 ->
  (forall x G', Q1 x G' -> dear n2 (f x) (G' ++ F) Q2) ->
  dear (n1 + n2) (pbind p f) (G ++ F) Q2.
Proof.
  intros A B p f. induction p; intros n1 n2 G F Q1 Q2; cbn [dear pbind]; intros S1 S2.
  - destruct S1 as (G1 & P1 & q). apply (dear_perm _ _ (G1 ++ F)).
    { apply Permutation_app_tail. now apply Permutation_sym. }
    eapply dear_le; [now apply S2|lia].
  - easy.
  - destruct S1 as (n' & ts & G1 & -> & Fc & P1 & K & S). exists (n' + n2), ts, (G1 ++ F).
    splits; trivial; [lia| |].
    + rewrite app_assoc. now apply Permutation_app_tail.
    + intros a. apply (H a n' n2 (Tree (PT a c ts) :: G1) F Q1 Q2); auto.
  - destruct S1 as (n' & -> & S). exists (n' + n2). split; [lia|].
    intros a. apply (H a n' n2 (Held a :: G) F Q1 Q2); auto.
  - destruct S1 as (n' & c & ts & -> & L & S). exists (n' + n2), c, ts. splits; trivial.
    + now apply lent_app.
    + apply (IHp n' n2 (Tree (PT a c ts) :: G) F Q1 Q2); auto.
  - destruct S1 as (n' & c & ts & -> & L & S). exists (n' + n2), c, ts. splits; trivial.
    + now apply lent_app.
    + intros Sh Fc. eapply H; eauto.
  - destruct S1 as (n' & c & ts & G1 & -> & P1 & Sn & Ss). exists (n' + n2), c, ts, (G1 ++ F). splits; trivial.
    + change (Tree (PT a c ts) :: G1 ++ F) with ((Tree (PT a c ts) :: G1) ++ F).
      now apply Permutation_app_tail.
    + eapply H; eauto.
    + intros Sh Al Fc. rewrite app_assoc, Nat.add_assoc. eapply H; eauto. apply Ss; trivial.
      eapply alone_incl; [exact Al|]. apply incl_appl, incl_refl.
  - destruct S1 as (n' & c & ts & G1 & -> & P1 & Sn & Ss). exists (n' + n2), c, ts, (G1 ++ F). splits; trivial.
    + change (Tree (PT a c ts) :: G1 ++ F) with ((Tree (PT a c ts) :: G1) ++ F).
      now apply Permutation_app_tail.
    + eapply H; eauto.
    + intros Sh Al Fc. rewrite app_assoc.
      change (Held a :: (map Tree ts ++ G1) ++ F) with ((Held a :: map Tree ts ++ G1) ++ F).
      eapply H; eauto. apply Ss; trivial.
      eapply alone_incl; [exact Al|]. apply incl_appl, incl_refl.
  - destruct S1 as (n' & ts & G1 & -> & Fc & P1 & K & S). exists (n' + n2), ts, (G1 ++ F). splits; trivial.
    + rewrite app_assoc.
      change (Held a :: (map Tree ts ++ G1) ++ F) with ((Held a :: map Tree ts ++ G1) ++ F).
      now apply Permutation_app_tail.
    + apply (IHp n' n2 (Tree (PT a c ts) :: G1) F Q1 Q2); auto.
  - destruct S1 as (n' & c & ts & G1 & -> & P1 & Sn & Ss). exists (n' + n2), c, ts, (G1 ++ F). splits; trivial.
    + change (Tree (PT a c ts) :: G1 ++ F) with ((Tree (PT a c ts) :: G1) ++ F).
      now apply Permutation_app_tail.
    + eapply H; eauto.
    + intros Sh Al Fc. rewrite app_assoc, Nat.add_assoc. eapply H; eauto. apply Ss; trivial.
      eapply alone_incl; [exact Al|]. apply incl_appl, incl_refl.
  - destruct S1 as (n' & -> & S). exists (n' + n2). split; [trivial|]. eapply IHp; eauto.
  - destruct S1 as (n' & -> & S). exists (n' + n2). split; [trivial|]. eapply IHp; eauto.
Qed.

Lemma dear_ret : forall {A} (x : A) n G (Q : A -> list own -> Prop), Q x G -> dear n (Ret x) G Q.
Proof. intros. exists G. auto. Qed.

Lemma dear_assoc : forall {X Y Z} (p : prog C X) (f : X -> prog C Y) (g : Y -> prog C Z) n G Q,
  dear n (pbind p (fun x => pbind (f x) g)) G Q -> dear n (pbind (pbind p f) g) G Q.
Proof.
  intros X Y Z p f g. induction p; intros n0 G Q; cbn [pbind dear]; trivial.
  - intros (n' & ts & G1 & -> & Fc & P & K & S). exists n', ts, G1. auto 7.
  - intros (n' & -> & S). exists n'. auto.
  - intros (n' & c & ts & -> & L & S). exists n', c, ts. auto.
  - intros (n' & c & ts & -> & L & S). exists n', c, ts. auto.
  - intros (n' & c & ts & G1 & -> & P1 & S1 & S2). exists n', c, ts, G1. auto 7.
  - intros (n' & c & ts & G1 & -> & P1 & S1 & S2). exists n', c, ts, G1. auto 7.
  - intros (n' & ts & G1 & -> & Fc & P1 & K & S). exists n', ts, G1. auto 7.
  - intros (n' & c & ts & G1 & -> & P1 & S1 & S2). exists n', c, ts, G1. auto 7.
  - intros (n' & -> & S). exists n'. auto.
  - intros (n' & -> & S). exists n'. auto.
Qed.

Lemma dear_unassoc : forall {X Y Z} (p : prog C X) (f : X -> prog C Y) (g : Y -> prog C Z) n G Q,
  dear n (pbind (pbind p f) g) G Q -> dear n (pbind p (fun x => pbind (f x) g)) G Q.
Proof.
  intros X Y Z p f g. induction p; intros n0 G Q; cbn [pbind dear]; trivial.
  - intros (n' & ts & G1 & -> & Fc & P & K & S). exists n', ts, G1. auto 7.
  - intros (n' & -> & S). exists n'. auto.
  - intros (n' & c & ts & -> & L & S). exists n', c, ts. auto.
  - intros (n' & c & ts & -> & L & S). exists n', c, ts. auto.
  - intros (n' & c & ts & G1 & -> & P1 & S1 & S2). exists n', c, ts, G1. auto 7.
  - intros (n' & c & ts & G1 & -> & P1 & S1 & S2). exists n', c, ts, G1. auto 7.
  - intros (n' & ts & G1 & -> & Fc & P1 & K & S). exists n', ts, G1. auto 7.
  - intros (n' & c & ts & G1 & -> & P1 & S1 & S2). exists n', c, ts, G1. auto 7.
  - intros (n' & -> & S). exists n'. auto.
  - intros (n' & -> & S). exists n'. auto.
Qed.

(** The part of the owned pointers that the program needs. *)
Lemma dear_seq : forall {A B} (p : prog C A) (f : A -> prog C B) n1 n2 n G G1 F Q1 Q2,
  dear n1 p G1 Q1 -> Permutation G (G1 ++ F) ->
  (forall x G', Q1 x G' -> dear n2 (f x) (G' ++ F) Q2) ->
  n1 + n2 <= n -> dear n (pbind p f) G Q2.
Proof.
  intros A B p f n1 n2 n G G1 F Q1 Q2 S P K L.
  eapply dear_perm; [apply Permutation_sym; exact P|].
  eapply dear_le; [eapply dear_bind; eauto|exact L].
Qed.

(** The whole program is the last step. *)
Lemma dear_frame : forall {A} (p : prog C A) n1 n G G1 F Q1 (Q2 : A -> list own -> Prop),
  dear n1 p G1 Q1 -> Permutation G (G1 ++ F) ->
  (forall x G', Q1 x G' -> exists G2, Permutation (G' ++ F) G2 /\ Q2 x G2) ->
  n1 <= n -> dear n p G Q2.
Proof.
  intros A p. induction p; intros n1 n G G1 F Q1 Q2 S P K L; cbn [dear] in *.
  - destruct S as (G' & P1 & q). destruct (K _ _ q) as (G2 & P2 & q2). exists G2. split; trivial.
    eapply Permutation_trans; [exact P|]. eapply Permutation_trans; [|exact P2].
    now apply Permutation_app_tail.
  - easy.
  - destruct S as (n' & ts & G' & -> & Fc & P1 & E & S).
    exists (n - (1 + credit)), ts, (G' ++ F). splits; trivial; [lia| |].
    + rewrite app_assoc. eapply Permutation_trans; [exact P|]. now apply Permutation_app_tail.
    + intros a. eapply H; [apply S| |exact K|lia]. perm.
  - destruct S as (n' & -> & S). exists (n - (1 + credit)). split; [lia|].
    intros a. eapply H; [apply S| |exact K|lia]. cbn [app]. now constructor.
  - destruct S as (n' & c & ts & -> & Lt & S). exists (n - 1), c, ts. splits; [lia| |].
    + eapply lent_incl; [exact Lt|]. intros x I. eapply Permutation_in; [apply Permutation_sym; exact P|].
      apply in_app_iff. now left.
    + eapply IHp; [exact S| |exact K|lia]. cbn [app]. now constructor.
  - destruct S as (n' & c & ts & -> & Lt & S). exists (n - 1), c, ts. splits; [lia| |].
    + eapply lent_incl; [exact Lt|]. intros x I. eapply Permutation_in; [apply Permutation_sym; exact P|].
      apply in_app_iff. now left.
    + intros Sh Fc. eapply H; [now apply S|exact P|exact K|lia].
  - destruct S as (n' & c & ts & G' & -> & P1 & S1 & S2). exists (n - 1), c, ts, (G' ++ F). splits; [lia| | |].
    + eapply Permutation_trans; [exact P|].
      change (Tree (PT a c ts) :: G' ++ F) with ((Tree (PT a c ts) :: G') ++ F).
      now apply Permutation_app_tail.
    + eapply H; [exact S1|apply Permutation_refl|exact K|lia].
    + intros Sh Al Fc. eapply H; [apply S2; [trivial| |trivial]| |exact K|lia].
      * eapply alone_incl; [exact Al|]. apply incl_appl, incl_refl.
      * perm.
  - destruct S as (n' & c & ts & G' & -> & P1 & S1 & S2). exists (n - 1), c, ts, (G' ++ F). splits; [lia| | |].
    + eapply Permutation_trans; [exact P|].
      change (Tree (PT a c ts) :: G' ++ F) with ((Tree (PT a c ts) :: G') ++ F).
      now apply Permutation_app_tail.
    + eapply H; [exact S1|exact P|exact K|lia].
    + intros Sh Al Fc. eapply H; [apply S2; [trivial| |trivial]| |exact K|lia].
      * eapply alone_incl; [exact Al|]. apply incl_appl, incl_refl.
      * perm.
  - destruct S as (n' & ts & G' & -> & Fc & P1 & E & S). exists (n - 1), ts, (G' ++ F). splits; trivial; [lia| |].
    + eapply Permutation_trans; [exact P|]. rewrite app_assoc.
      change (Held a :: (map Tree ts ++ G') ++ F) with ((Held a :: map Tree ts ++ G') ++ F).
      now apply Permutation_app_tail.
    + eapply IHp; [exact S| |exact K|lia]. perm.
  - destruct S as (n' & c & ts & G' & -> & P1 & S1 & S2). exists (n - 1), c, ts, (G' ++ F). splits; [lia| | |].
    + eapply Permutation_trans; [exact P|].
      change (Tree (PT a c ts) :: G' ++ F) with ((Tree (PT a c ts) :: G') ++ F).
      now apply Permutation_app_tail.
    + eapply H; [exact S1|exact P|exact K|lia].
    + intros Sh Al Fc. eapply H; [apply S2; [trivial| |trivial]| |exact K|lia].
      * eapply alone_incl; [exact Al|]. apply incl_appl, incl_refl.
      * perm.
  - destruct S as (n' & -> & S). exists (n - 1). split; [lia|]. eapply IHp; eauto. lia.
  - destruct S as (n' & -> & S). exists (n - 1). split; [lia|]. eapply IHp; eauto. lia.
Qed.

(** Reading a cell that is owned or reachable from what is. *)
Lemma dear_read : forall {A} n a c ts (k : C -> prog C A) G Q,
  lent (PT a c ts) G -> 1 <= n -> dear (n - 1) (k c) G Q -> dear n (Read a k) G Q.
Proof. intros A n a c ts k G Q Lt L S. exists (n - 1), c, ts. splits; [lia|exact Lt|trivial]. Qed.

(** A wrapper that changes the answer. *)
Lemma dear_wrap : forall {Coll X Y : Type} n (p : prog C (Coll * X)) (f : X -> Y) G (P : Coll -> list own -> Prop) x,
  dear n p G (fun r G' => snd r = x /\ P (fst r) G') ->
  dear n (let* (c, y) := p in Ret (c, f y)) G (fun r G' => snd r = f x /\ P (fst r) G').
Proof.
  intros Coll X Y n p f G P x H.
  eapply (dear_seq _ _ n 0 n _ G [] (fun r G' => snd r = x /\ P (fst r) G')); [exact H|perm| |lia].
  intros [c y] G' (E & HP). cbn [fst snd] in *. subst y. apply dear_ret. rewrite app_nil_r. auto.
Qed.

(** ** Soundness *)
Lemma dear_step : forall {A} (p : prog C A) n G F Q h,
  dear n p G Q -> WF kids h (G ++ F) -> all_fine h ->
  match pstep h p with
  | Stop x => exists G', Permutation G G' /\ Q x G'
  | Crash => False
  | Step h' p' =>
      exists n' G', dear n' p' G' Q /\ WF kids h' (G' ++ F) /\ all_fine h' /\
        S n' + credit * live h' <= n + credit * live h
  end.
Proof.
  intros A p n G F Q h D W Fh.
  assert (Own : forall a c ts G1, Permutation G (Tree (PT a c ts) :: G1) -> WF kids h (Tree (PT a c ts) :: G1 ++ F)).
  { intros a c ts G1 P1. eapply WF_perm; [|exact W].
    change (Tree (PT a c ts) :: G1 ++ F) with ((Tree (PT a c ts) :: G1) ++ F).
    now apply Permutation_app_tail. }
  assert (Shp : forall a c ts G1, WF kids h (Tree (PT a c ts) :: G1) -> shaped kids (PT a c ts)).
  { intros a c ts G1 (_ & F1 & _). apply Forall_cons_iff in F1 as [P _]. exact (phys_shaped kids h _ P). }
  assert (Aln : forall a c ts G1, WF kids h (Tree (PT a c ts) :: G1 ++ F) -> get h a = Some (Full 1 c) -> alone a G1).
  { intros a c ts G1 W' E. eapply alone_incl; [|apply incl_appl, incl_refl].
    exact (proj1 (WF_unique kids h (G1 ++ F) (PT a c ts) c W' E)). }
  destruct p; cbn [dear pstep] in *; trivial.
  - destruct D as (n' & ts & G1 & -> & Fc & P1 & K & S). exists n', (Tree (PT (length h) c ts) :: G1).
    split; [apply S|]. split; [|split; [now apply all_fine_app|rewrite live_app; lia]].
    cbn [app]. apply WF_new; trivial. eapply WF_perm; [|exact W]. rewrite app_assoc.
    now apply Permutation_app_tail.
  - destruct D as (n' & -> & S). exists n', (Held (length h) :: G). split; [apply S|].
    split; [cbn [app]; now apply WF_reserve|]. split; [now apply all_fine_hole|rewrite live_app; lia].
  - destruct D as (n' & c & ts & -> & L & S).
    assert (P := lent_phys kids h _ _ (lent_app _ _ F L) W).
    assert (P' := P). apply phys_eq in P' as ((m & E) & _). rewrite E.
    exists n', (Tree (PT a c ts) :: G). split; [trivial|].
    split; [cbn [app]; apply WF_clone; trivial; now apply lent_app|].
    split; [apply all_fine_set; [trivial|exact (Fh _ _ _ E)]|].
    destruct (live_set h a (Full (Datatypes.S m) c)) as [-> _]; [congruence|lia].
  - destruct D as (n' & c & ts & -> & L & S).
    assert (P := lent_phys kids h _ _ (lent_app _ _ F L) W).
    assert (P' := P). apply phys_eq in P' as ((m & E) & _). rewrite E.
    exists n', G. split; [apply S; [exact (phys_shaped kids h _ P)|exact (Fh _ _ _ E)]|].
    split; [trivial|]. split; [trivial|lia].
  - destruct D as (n' & c & ts & G1 & -> & P1 & S1 & S2). assert (W' := Own _ _ _ _ P1).
    destruct (WF_owned_full kids _ _ _ _ _ W') as (m & E). rewrite E. destruct m as [|m].
    + exists (credit + n'), (map Tree ts ++ G1). split; [|split; [|split]].
      * apply S2; [exact (Shp _ _ _ _ W')|exact (Aln _ _ _ _ W' E)|exact (Fh _ _ _ E)].
      * rewrite <- app_assoc. apply (WF_take kids h (G1 ++ F) a c ts c None); auto.
      * now apply all_fine_set.
      * destruct (live_set h a Hole) as [_ L]; [congruence|]. nia.
    + exists n', G1. split; [trivial|]. split; [exact (WF_dec kids h (G1 ++ F) (PT a c ts) m c W' E)|].
      split; [apply all_fine_set; [trivial|exact (Fh _ _ _ E)]|].
      destruct (live_set h a (Full (Datatypes.S m) c)) as [-> _]; [congruence|lia].
  - destruct D as (n' & c & ts & G1 & -> & P1 & S1 & S2). assert (W' := Own _ _ _ _ P1).
    destruct (WF_owned_full kids _ _ _ _ _ W') as (m & E). rewrite E. destruct m as [|m].
    + exists n', (Held a :: map Tree ts ++ G1). split; [|split; [|split]].
      * apply S2; [exact (Shp _ _ _ _ W')|exact (Aln _ _ _ _ W' E)|exact (Fh _ _ _ E)].
      * cbn [app]. rewrite <- app_assoc. apply (WF_take kids h (G1 ++ F) a c ts c (Some Hole)); auto.
      * now apply all_fine_set.
      * destruct (live_set h a Hole) as [-> _]; [congruence|lia].
    + exists n', G. split; [trivial|]. split; [trivial|]. split; [trivial|lia].
  - destruct D as (n' & ts & G1 & -> & Fc & P1 & K & S).
    assert (W' : WF kids h (Held a :: map Tree ts ++ (G1 ++ F))).
    { eapply WF_perm; [|exact W]. rewrite app_assoc.
      change (Held a :: (map Tree ts ++ G1) ++ F) with ((Held a :: map Tree ts ++ G1) ++ F).
      now apply Permutation_app_tail. }
    destruct (WF_fill kids h (G1 ++ F) a c ts W' K) as [E W2]. rewrite E.
    exists n', (Tree (PT a c ts) :: G1). split; [trivial|]. split; [trivial|]. split; [now apply all_fine_set|].
    destruct (live_set h a (Full 1 c)) as [-> _]; [congruence|lia].
  - destruct D as (n' & c & ts & G1 & -> & P1 & S1 & S2). assert (W' := Own _ _ _ _ P1).
    destruct (WF_owned_full kids _ _ _ _ _ W') as (m & E). rewrite E. destruct m as [|m].
    + exists (credit + n'), (map Tree ts ++ G1). split; [|split; [|split]].
      * apply S2; [exact (Shp _ _ _ _ W')|exact (Aln _ _ _ _ W' E)|exact (Fh _ _ _ E)].
      * rewrite <- app_assoc. apply (WF_take kids h (G1 ++ F) a c ts c None); auto.
      * now apply all_fine_set.
      * destruct (live_set h a Hole) as [_ L]; [congruence|]. nia.
    + exists n', G. split; [trivial|]. split; [trivial|]. split; [trivial|lia].
  - destruct D as (n' & -> & S). exists n', G. split; [trivial|]. split; [trivial|]. split; [trivial|lia].
  - destruct D as (n' & -> & S). exists n', G. split; [trivial|]. split; [trivial|]. split; [trivial|lia].
Qed.

(** One thread alone, in any surrounding heap. *)
Lemma dear_run : forall {A} (p : prog C A) n G F Q h,
  dear n p G Q -> WF kids h (G ++ F) -> all_fine h ->
  exists h' x G', run h p = Some (h', x) /\ Q x G' /\ WF kids h' (G' ++ F) /\ all_fine h' /\
    work h p + credit * live h' <= n + credit * live h.
Proof.
  intros A p. induction p; intros n0 G F Q h0 S W Fh;
    rewrite run_step, work_step;
    assert (T := dear_step _ _ _ _ _ _ S W Fh);
    match type of T with match ?e with _ => _ end => destruct e eqn:E end;
    try contradiction;
    try (cbn in E;
         try (destruct (get h0 a) as [[[|[|m]] c'|]|]; try discriminate);
         try discriminate; injection E as E1 E2; subst;
         destruct T as (n' & G' & S' & W' & F' & L');
         match goal with
         | IH : forall x n G F Q h, dear n (_ x) G Q -> _ |- _ =>
             destruct (IH _ _ _ _ _ _ S' W' F') as (h2 & x2 & G2 & R & q & W2 & F2 & L2)
         | IH : forall n G F Q h, dear n _ G Q -> _ |- _ =>
             destruct (IH _ _ _ _ _ S' W' F') as (h2 & x2 & G2 & R & q & W2 & F2 & L2)
         end; exists h2, x2, G2; splits; trivial; lia).
  - cbn in E. injection E as ->. destruct T as (G' & P & q).
    exists h0, x0, G'. splits; trivial; [|lia].
    eapply WF_perm; [|exact W]. now apply Permutation_app_tail.
Qed.

(** Any number of threads; [ss]: what each owns and may still spend. *)
Inductive threads_dear {A} :
  list (prog C A) -> list (A -> list own -> Prop) -> list (nat * list own) -> Prop :=
| td_nil : threads_dear [] [] []
| td_cons : forall p ps Q Qs n G ss,
    dear n p G Q -> threads_dear ps Qs ss -> threads_dear (p :: ps) (Q :: Qs) ((n, G) :: ss).

Lemma dear_nth : forall {A} (ps : list (prog C A)) Qs ss i p,
  threads_dear ps Qs ss -> nth_error ps i = Some p ->
  exists Q n G ss1 ss2,
    nth_error Qs i = Some Q /\ ss = ss1 ++ (n, G) :: ss2 /\ dear n p G Q /\
    (forall n' p' G', dear n' p' G' Q -> threads_dear (upd ps i p') Qs (ss1 ++ (n', G') :: ss2)).
Proof.
  intros A ps Qs ss i p T. revert i. induction T; intros i E; [now destruct i|].
  destruct i as [|i]; cbn in E.
  - injection E as ->. exists Q, n, G, [], ss. cbn. splits; trivial.
    intros. now constructor.
  - destruct (IHT i E) as (Q' & n' & G' & s1 & s2 & E1 & -> & S & R).
    exists Q', n', G', ((n, G) :: s1), s2. cbn. splits; trivial.
    intros. constructor; auto.
Qed.

Lemma dear_moves : forall {A} sched h (ps : list (prog C A)) Qs ss,
  threads_dear ps Qs ss -> WF kids h (owned_by ss) -> all_fine h ->
  moves sched (h, ps) + credit * live (fst (exec sched (h, ps))) <= budget ss + credit * live h.
Proof.
  intros A sched. induction sched as [|i s IH]; intros h ps Qs ss T W Fh; [cbn [moves exec fst]; lia|].
  cbn [moves exec fst snd]. unfold cstep.
  destruct (nth_error ps i) as [p|] eqn:E; [|now apply IH with Qs].
  destruct (dear_nth _ _ _ _ _ T E) as (Q & n & G & s1 & s2 & E1 & -> & D & R).
  assert (W' : WF kids h (G ++ (flat_map snd s1 ++ flat_map snd s2))).
  { eapply WF_perm; [|exact W]. unfold owned_by. rewrite flat_map_app. cbn [flat_map snd]. perm. }
  assert (X := dear_step _ _ _ _ _ _ D W' Fh).
  destruct (pstep h p) as [x| |h' p'] eqn:Ep; [|contradiction|].
  - now apply IH with Qs.
  - destruct X as (n' & G' & D' & W2 & F2 & L).
    assert (Y : moves s (h', upd ps i p') + credit * live (fst (exec s (h', upd ps i p'))) <=
                budget (s1 ++ (n', G') :: s2) + credit * live h').
    { apply IH with Qs; [now apply R| |trivial].
      eapply WF_perm; [|exact W2]. unfold owned_by. rewrite flat_map_app. cbn [flat_map snd]. perm. }
    unfold budget in *. rewrite map_app, list_sum_app in *. cbn [map fst] in *.
    change (list_sum (n' :: map fst s2)) with (n' + list_sum (map fst s2)) in Y.
    change (list_sum (n :: map fst s2)) with (n + list_sum (map fst s2)). lia.
Qed.
End Pays.

(** ** Clients and threads *)

(** What a client program may spend: [price] for each operation performed,
    constants for creating, cloning and dropping a version. *)
Section Price.
Context {Val Op Out : Type} (vnew : Val) (vop : Op -> Val -> Val * Out).
Context (nnew nclone ndrop : nat) (price : Op -> Val -> nat).

Fixpoint price_of (l : list (cmd Op)) (rs : list (option Val)) : nat :=
  match l with
  | [] => 0
  | CNew :: l' => nnew + price_of l' (rs ++ [Some vnew])
  | CClone i :: l' =>
      match nth_error rs i with
      | Some (Some v) => nclone + price_of l' (rs ++ [Some v])
      | _ => price_of l' rs
      end
  | COp i o :: l' =>
      match nth_error rs i with
      | Some (Some v) => price o v + price_of l' (upd rs i (Some (fst (vop o v))))
      | _ => price_of l' rs
      end
  | CDrop i :: l' =>
      match nth_error rs i with
      | Some (Some v) => ndrop + price_of l' (upd rs i None)
      | _ => price_of l' rs
      end
  end.
End Price.

Lemma price_ext : forall {Val Op Out} (vnew : Val) (vop : Op -> Val -> Val * Out) a b c (p p' : Op -> Val -> nat) l rs,
  (forall o v, p o v = p' o v) -> price_of vnew vop a b c p l rs = price_of vnew vop a b c p' l rs.
Proof.
  intros Val Op Out vnew vop a b c p p' l rs E. revert rs.
  induction l as [|[|i|i o|i] l IH]; intros rs; cbn [price_of]; trivial; try (now rewrite IH);
    destruct (nth_error rs i) as [[v|]|]; rewrite ?E, ?IH; trivial.
Qed.

Section World.
Context {C : Type} (kids : C -> list addr) (credit : nat) (fine : C -> Prop).
Context {Coll Val Op Out : Type}.
Context (hnew : prog C Coll) (hclone : Coll -> prog C Coll) (hdrop : Coll -> prog C unit)
        (hop : Op -> Coll -> prog C (Coll * Out)).
Notation own := (@own C).
Context (rep : Coll -> Val -> list own -> Prop).
Context (vnew : Val) (vop : Op -> Val -> Val * Out) (pre : Op -> Val -> Prop).
Context (nnew nclone ndrop : nat) (price : Op -> Val -> nat).
(** Calls whose own number of steps is bounded, by [limit] *)
Context (direct : Op -> bool) (limit : Op -> Val -> nat).

(** Every program of a main thread followed by every schedule of every set of
    threads makes no more steps in all than its calls are allowed. *)
Definition total_work : Prop := forall main jobs,
  within vnew vop pre main [] ->
  let vs := fst (sclient vnew vop main []) in
  Permutation (concat (map job_regs jobs)) (seq 0 (length vs)) ->
  Forall (job_within vnew vop pre vs) jobs ->
  exists h rs,
    run [] (hclient hnew hclone hdrop hop main []) = Some (h, (rs, snd (sclient vnew vop main []))) /\
    forall sched,
      work [] (hclient hnew hclone hdrop hop main []) +
      moves sched (h, map (job_start hnew hclone hdrop hop rs) jobs) <=
      price_of vnew vop nnew nclone ndrop price main [] +
      list_sum (map (fun j => price_of vnew vop nnew nclone ndrop price (job_cmds j) (hand vs (job_regs j))) jobs).

(** A [direct] call in any state that any program can reach. *)
Definition call_work : Prop := forall main i o v,
  within vnew vop pre main [] ->
  nth_error (fst (sclient vnew vop main [])) i = Some (Some v) -> pre o v -> direct o = true ->
  exists h rs c h' c',
    run [] (hclient hnew hclone hdrop hop main []) = Some (h, (rs, snd (sclient vnew vop main []))) /\
    nth_error rs i = Some (Some c) /\
    run h (hop o c) = Some (h', (c', snd (vop o v))) /\
    work h (hop o c) <= limit o v.

(** The same for [clone]. *)
Definition clone_work : Prop := forall main i v,
  within vnew vop pre main [] ->
  nth_error (fst (sclient vnew vop main [])) i = Some (Some v) ->
  exists h rs c h' c',
    run [] (hclient hnew hclone hdrop hop main []) = Some (h, (rs, snd (sclient vnew vop main []))) /\
    nth_error rs i = Some (Some c) /\
    run h (hclone c) = Some (h', c') /\
    work h (hclone c) <= nclone.

Hypothesis new_dear : dear kids credit fine nnew hnew [] (fun c G => rep c vnew G).
Hypothesis clone_dear : forall c v G, rep c v G ->
  dear kids credit fine nclone (hclone c) G
    (fun c' G' => exists G1 G2, G' = G1 ++ G2 /\ rep c v G1 /\ rep c' v G2).
Hypothesis drop_dear : forall c v G, rep c v G -> dear kids credit fine ndrop (hdrop c) G (fun _ G' => G' = []).
Hypothesis op_dear : forall o c v G, rep c v G -> pre o v ->
  dear kids credit fine (price o v) (hop o c) G
    (fun r G' => snd r = snd (vop o v) /\ rep (fst r) (fst (vop o v)) G').
Hypothesis direct_dear : forall o c v G, rep c v G -> pre o v -> direct o = true ->
  dear kids 0 fine (limit o v) (hop o c) G
    (fun r G' => snd r = snd (vop o v) /\ rep (fst r) (fst (vop o v)) G').
Hypothesis clone_direct : forall c v G, rep c v G ->
  dear kids 0 fine nclone (hclone c) G
    (fun c' G' => exists G1 G2, G' = G1 ++ G2 /\ rep c v G1 /\ rep c' v G2).

Lemma client_dear : forall l cs vs G,
  reps rep cs vs G -> within vnew vop pre l vs ->
  dear kids credit fine (price_of vnew vop nnew nclone ndrop price l vs) (hclient hnew hclone hdrop hop l cs) G
    (fun r G' => snd r = snd (sclient vnew vop l vs) /\
                 reps rep (fst r) (fst (sclient vnew vop l vs)) G').
Proof.
  induction l as [|x l IH]; intros cs vs G R W.
  - exists G. cbn. auto.
  - destruct x as [|i|i o|i]; cbn [hclient sclient within price_of] in *.
    + change G with ([] ++ G). eapply dear_bind; [exact new_dear|].
      intros c G' r. destruct (reps_app _ _ _ _ _ _ _ R r) as (G'' & P & R').
      eapply dear_perm; [|apply IH; [exact R'|exact W]].
      apply Permutation_sym. eapply Permutation_trans; [|exact P]. perm.
    + assert (N := reps_nth _ _ _ _ i R). destruct (nth_error vs i) as [[v|]|] eqn:Ev;
        [|rewrite N; now apply IH..].
      destruct N as (c & G1 & G2 & E & r & P & U & _). rewrite E.
      eapply dear_perm; [apply Permutation_sym; exact P|].
      apply (dear_bind kids credit fine _ _ nclone _ G1 G2 _ _
               (clone_dear _ _ _ r)).
      intros c' G' (G3 & G4 & -> & r1 & r2).
      destruct (U c v G3 r1) as (G5 & P5 & R5).
      rewrite (upd_same cs), (upd_same vs) in R5 by trivial.
      destruct (reps_app _ _ _ _ _ _ _ R5 r2) as (G6 & P6 & R6).
      eapply dear_perm; [|apply IH; [exact R6|exact W]].
      apply Permutation_sym. eapply Permutation_trans; [|exact P6].
      eapply Permutation_trans; [|apply Permutation_app_tail; exact P5]. perm.
    + assert (N := reps_nth _ _ _ _ i R). destruct (nth_error vs i) as [[v|]|] eqn:Ev;
        [|rewrite N; now apply IH..].
      destruct N as (c & G1 & G2 & E & r & P & U & _). rewrite E. destruct W as [W1 W2].
      eapply dear_perm; [apply Permutation_sym; exact P|].
      apply (dear_bind kids credit fine _ _ (price o v) _ G1 G2 _ _
               (op_dear _ _ _ _ r W1)).
      intros [c' y] G' (Ex & r'). cbn [fst snd] in *.
      destruct (vop o v) as [v' y']. cbn [fst snd] in *. subst y'.
      destruct (U c' v' G' r') as (G5 & P5 & R5).
      eapply dear_perm; [apply Permutation_sym; exact P5|].
      rewrite <- (app_nil_r G5).
      rewrite <- (Nat.add_0_r (price_of _ _ _ _ _ _ _ _)).
      eapply dear_bind; [apply IH; [exact R5|exact W2]|].
      intros [rs xs] G6 (E6 & R6). cbn [fst snd] in *. eexists. split; [apply Permutation_refl|]. rewrite app_nil_r.
      destruct (sclient vnew vop l (upd vs i (Some v'))) as [vs' ys]. cbn [fst snd] in *.
      subst. auto.
    + assert (N := reps_nth _ _ _ _ i R). destruct (nth_error vs i) as [[v|]|] eqn:Ev;
        [|rewrite N; now apply IH..].
      destruct N as (c & G1 & G2 & E & r & P & _ & G5 & P5 & R5). rewrite E.
      eapply dear_perm; [apply Permutation_sym; exact P|].
      apply (dear_bind kids credit fine _ _ ndrop _ G1 G2 _ _
               (drop_dear _ _ _ r)).
      intros [] G' ->. eapply dear_perm; [|apply IH; [exact R5|exact W]].
      cbn [app]. now apply Permutation_sym.
Qed.

Lemma main_dear : forall main, within vnew vop pre main [] ->
  exists h rs G,
    run [] (hclient hnew hclone hdrop hop main []) = Some (h, (rs, snd (sclient vnew vop main []))) /\
    reps rep rs (fst (sclient vnew vop main [])) G /\ WF kids h G /\ all_fine fine h /\
    work [] (hclient hnew hclone hdrop hop main []) + credit * live h <=
    price_of vnew vop nnew nclone ndrop price main [].
Proof.
  intros main Wm.
  destruct (dear_run kids credit fine _ _ _ [] _ [] (client_dear main [] [] [] (reps_nil rep) Wm))
    as (h & [rs xs] & G & E & (E1 & R) & W & Fh & L); [apply WF_nil|apply all_fine_nil|].
  cbn [fst snd] in *. subst xs. rewrite app_nil_r in W. exists h, rs, G. splits; trivial.
  cbn [live] in L. change (live (@nil (option (cell C)))) with 0 in L. lia.
Qed.

Theorem total_work_ok : total_work.
Proof.
  intros main jobs Wm vs Pj Wj.
  destruct (main_dear main Wm) as (h & rs & G & E & R & W & Fh & L). exists h, rs. split; [exact E|].
  intros sched. fold vs in R.
  destruct (reps_pieces _ _ _ _ R) as (Gs & -> & L1 & L2 & P).
  set (ss := map (fun j => (price_of vnew vop nnew nclone ndrop price (job_cmds j) (hand vs (job_regs j)),
                            flat_map (fun i => nth i Gs []) (job_regs j))) jobs).
  assert (T : exists Qs, threads_dear kids credit fine (map (job_start hnew hclone hdrop hop rs) jobs) Qs ss).
  { subst ss. clear -Wj P new_dear clone_dear drop_dear op_dear.
    induction Wj as [|j jobs Wi Wj (Qs & IH)]; cbn [map]; [exists []; constructor|].
    eexists (_ :: Qs). constructor; [|exact IH]. apply client_dear; [|exact Wi].
    now apply hand_reps. }
  destruct T as (Qs & T).
  assert (X := dear_moves kids credit fine sched h _ _ _ T).
  assert (Eb : budget ss =
     list_sum (map (fun j => price_of vnew vop nnew nclone ndrop price (job_cmds j) (hand vs (job_regs j))) jobs)).
  { subst ss. unfold budget. now rewrite map_map. }
  rewrite Eb in X. assert (Y := fun H => X H Fh). clear X. enough (Z : WF kids h (owned_by ss)) by (specialize (Y Z); lia).
  eapply WF_perm; [|exact W]. rewrite concat_seq, L1, <- L2. apply Permutation_sym.
  assert (Eo : owned_by ss = flat_map (fun i => nth i Gs []) (concat (map job_regs jobs))).
  { subst ss. unfold owned_by. clear. induction jobs as [|j jobs IH]; cbn; [trivial|].
    rewrite flat_map_app, <- IH. reflexivity. }
  rewrite Eo. apply Permutation_flat_map. exact Pj.
Qed.

Theorem call_work_ok : call_work.
Proof.
  intros main i o v Wm Ev Po Di.
  destruct (main_dear main Wm) as (h & rs & G & E & R & W & Fh & L).
  assert (N := reps_nth _ _ _ _ i R). rewrite Ev in N.
  destruct N as (c & G1 & G2 & Ec & r & P & _).
  destruct (dear_run kids 0 fine _ _ G1 G2 _ h
              (direct_dear _ _ _ _ r Po Di))
    as (h' & [c' x] & G' & E' & (E1 & R') & W' & F' & L'); [eapply WF_perm; eauto|trivial|].
  cbn [fst snd] in *. subst x. exists h, rs, c, h', c'. splits; trivial. lia.
Qed.

Theorem clone_work_ok : clone_work.
Proof.
  intros main i v Wm Ev.
  destruct (main_dear main Wm) as (h & rs & G & E & R & W & Fh & L).
  assert (N := reps_nth _ _ _ _ i R). rewrite Ev in N.
  destruct N as (c & G1 & G2 & Ec & r & P & _).
  destruct (dear_run kids 0 fine _ _ G1 G2 _ h
              (clone_direct _ _ _ r))
    as (h' & c' & G' & E' & _ & W' & F' & L'); [eapply WF_perm; eauto|trivial|].
  exists h, rs, c, h', c'. splits; trivial. lia.
Qed.

Definition works : Prop := total_work /\ call_work /\ clone_work.
Theorem works_ok : works.
Proof. split; [exact total_work_ok|split; [exact call_work_ok|exact clone_work_ok]]. Qed.
End World.
