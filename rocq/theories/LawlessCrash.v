(** With user code that keeps the laws until a given call and panics there, the functions of
    LawlessModel.v are those of CrashModel.v. *)
From Coq Require Import List NArith Arith Bool Lia.
From Verif Require Import Base Spec SpecMap ListModel SparseModel RBModel HashModel LawlessModel CrashModel.
Import ListNotations.

(** The world is the number of calls that still return. *)
Definition fused {A} (n : nat) (x : A) : nat * option A :=
  match n with O => (O, None) | S n => (n, Some x) end.
(** A clone of an entry calls the [Clone] of the key and that of the value. *)
Definition fused2 {A} (n : nat) (x : A) : nat * option A :=
  match n with S (S n) => (n, Some x) | _ => (O, None) end.

Definition as_crash {T A} (r : res (nat * uout T A)) : res (crash T A) :=
  let! (n, x) := r in Ok (match x with Gave a => Done n a | Torn s => Unwound s end).

Lemma ac_wbind : forall T T' A B (m : res (nat * uout T A)) m' (k : T -> T') f (g : nat -> A -> res (crash T' B)),
  as_crash m = m' -> (forall n a, as_crash (f n a) = g n a) -> as_crash (wbind m k f) = cbind m' k g.
Proof. intros T T' A B m m' k f g <- H. destruct m as [[n [a|s]]| |]; try reflexivity. cbn. apply H. Qed.
Lemma ac_wcall : forall X T A n (x : X) (s : T) f (g : nat -> res (crash T A)),
  (forall n, as_crash (f n x) = g n) -> as_crash (wcall (fused n x) s f) = ucall n s g.
Proof. intros X T A [|n] x s f g H; [reflexivity|]. cbn. apply H. Qed.
Lemma ac_clone : forall X T A n (x : X) (s : T) f (g : nat -> res (crash T A)),
  (forall n, as_crash (f n x) = g n) -> as_crash (wcall (fused2 n x) s f) = ucall n s (fun n => ucall n s g).
Proof. intros X T A [|[|n]] x s f g H; try reflexivity. cbn. apply H. Qed.
Lemma ac_bind : forall T A B (r : res A) f (g : A -> res (crash T B)),
  (forall a, as_crash (f a) = g a) -> as_crash (bind r f) = bind r g.
Proof. intros T A B [a| |] f g H; try reflexivity. apply H. Qed.

Ltac ac := repeat first
  [ reflexivity
  | match goal with
    | H : _ |- _ => apply H
    | |- as_crash (wbind _ _ _) = _ => apply ac_wbind; [|intros ? ?]
    | |- as_crash (bind _ _) = _ => apply ac_bind; intros ?
    | |- as_crash (let '(_, _) := ?x in _) = _ => destruct x
    | |- as_crash (match ?x with _ => _ end) = _ => destruct x
    end ].

Section RB.
Context {K V Q : Type}.
Variable dbg : bool.
Variable kcmp : K -> K -> comparison.
Variable borrow : K -> Q.
Variable qcmp : Q -> Q -> comparison.

Definition fused_ord : ord_code nat K V Q :=
  mkOrd _ _ _ _ (fun n a b => fused n (kcmp a b)) (fun n q k => fused n (qcmp q (borrow k))) (fun n e => fused2 n e).

Lemma ac_get : forall (t : tree K V) n q, as_crash (w_t_get fused_ord n t q) = c_t_get borrow qcmp n t q.
Proof.
  induction t as [|e c l IHl r IHr]; intros n q; cbn [w_t_get c_t_get]; [reflexivity|]. apply ac_wcall. intros n'.
  destruct (qcmp q (borrow (fst e))); ac.
Qed.
Lemma ac_ins : forall (t : tree K V) n k v root, as_crash (w_ins fused_ord n t k v root) = c_ins kcmp n t k v root.
Proof.
  induction t as [|e c l IHl r IHr]; intros n k v root; cbn [w_ins c_ins]; [reflexivity|]. apply ac_wcall. intros n'.
  destruct (kcmp k (fst e)); ac.
Qed.
Lemma ac_del : forall (t : tree K V) n q root, as_crash (w_del dbg fused_ord n t q root) = c_del dbg borrow qcmp n t q root.
Proof.
  induction t as [|e c l IHl r IHr]; intros n q root; cbn [w_del c_del]; [reflexivity|]. apply ac_wcall. intros n'.
  destruct (qcmp q (borrow (fst e))); ac.
Qed.
Lemma ac_get_mut : forall (t : tree K V) n sh q f, as_crash (w_t_get_mut fused_ord n sh t q f) = c_t_get_mut borrow qcmp n sh t q f.
Proof.
  induction t as [|e c l IHl r IHr]; intros n sh q f; cbn [w_t_get_mut c_t_get_mut]; [reflexivity|]. apply ac_wcall. intros n'.
  destruct (qcmp q (borrow (fst e))); ac. destruct sh; [|reflexivity]. apply ac_clone. intros n2. reflexivity.
Qed.
Lemma ac_rb_step : forall n sh o (m : rbmap K V),
  as_crash (w_rb_step dbg fused_ord n sh o m) = c_rb_step dbg kcmp borrow qcmp n sh o m.
Proof.
  intros n sh o m.
  assert (I : forall k v, as_crash (w_rb_insert_mut fused_ord n m k v) = c_rb_insert_mut kcmp n m k v).
  { intros k v. apply ac_wbind; [apply ac_ins|]. intros n' [r b]. reflexivity. }
  assert (D : forall q, as_crash (w_rb_remove_mut dbg fused_ord n m q) = c_rb_remove_mut dbg borrow qcmp n m q).
  { intros q. apply ac_wbind; [apply ac_del|]. intros n' [r b]. ac. }
  assert (G : forall q f, as_crash (w_rb_get_mut fused_ord n sh m q f) = c_rb_get_mut borrow qcmp n sh m q f).
  { intros q f. apply ac_wbind; [apply ac_get_mut|]. intros n' [r b]. ac. }
  assert (F : forall q, as_crash (w_rb_find fused_ord n m q) = c_rb_find borrow qcmp n m q).
  { intros q. apply ac_wbind; [apply ac_get|]. intros n' r. ac. }
  destruct o; cbn [w_rb_step c_rb_step]; ac.
Qed.
End RB.

Section Hash.
Variable ubits : N.
Variable dbg : bool.
Context {K V Q : Type}.
Variable keq : K -> K -> bool.
Variable borrow : K -> Q.
Variable qeq : Q -> Q -> bool.
Variable hash : K -> N.
Variable qhash : Q -> N.
Definition fused_hash : hash_code nat K V Q :=
  mkHash _ _ _ _ (fun n k => fused n (hash k)) (fun n q => fused n (qhash q)) (fun n a b => fused n (keq a b))
    (fun n k q => fused n (qeq (borrow k) q)) (fun n e => fused2 n e).
Notation entry := (hentry K V).

(** A test that asks the user where [pre] says so. *)
Section Test.
Variable test : nat -> entry -> nat * option bool.
Variables pre p : entry -> bool.
Hypothesis Ht : forall n e, test n e = if pre e then fused n (p e) else (n, Some false).
Lemma ac_ask : forall T A n (s : T) e f (g : nat -> bool -> res (crash T A)),
  (forall n b, as_crash (f n b) = g n b) -> as_crash (wcall (test n e) s f) = ask pre p n s e g.
Proof using Ht. intros T A n s e f g H. rewrite Ht. unfold ask. destruct (pre e); [|apply H]. apply ac_wcall. intros n'. apply H. Qed.
Lemma ac_find : forall l n, as_crash (w_find test n l) = c_find pre p n l.
Proof using Ht. induction l as [|e l IH]; intros n; cbn [w_find c_find]; [reflexivity|]. apply ac_ask. intros n' [|]; ac. Qed.
Lemma ac_lrf : forall fuel n b l, as_crash (w_lrf_loop test fuel n b l) = c_lrf_loop pre p fuel n b l.
Proof using Ht.
  induction fuel as [|fuel IH]; intros n b l; cbn [w_lrf_loop c_lrf_loop]; [reflexivity|]. destruct (l_is_empty l); [reflexivity|].
  apply ac_bind. intros e. apply ac_bind. intros [l' x]. apply ac_ask. intros n' [|]; ac.
Qed.
Lemma ac_remove_first : forall n l, as_crash (w_list_remove_first test n l) = c_list_remove_first pre p n l.
Proof using Ht. intros n l. apply ac_wbind; [apply ac_lrf|]. intros n' [[a b] c]. reflexivity. Qed.
End Test.

Lemma fused_matches : forall q h n (e : entry),
  w_matches fused_hash q h n e = if same_hash h e then fused n (matches borrow qeq q h e) else (n, Some false).
Proof. intros q h n e. unfold w_matches, same_hash, matches. destruct (e_hash e =? h)%N; reflexivity. Qed.
Lemma fused_matches_key : forall k h n (e : entry),
  w_matches_key fused_hash k h n e = if same_hash h e then fused n (matches_key keq k h e) else (n, Some false).
Proof. intros k h n e. unfold w_matches_key, same_hash, matches_key. destruct (e_hash e =? h)%N; reflexivity. Qed.

Lemma ac_b_find : forall test h p, (forall n e, test n e = if same_hash h e then fused n (p e) else (n, Some false)) ->
  forall n (b : hbucket K V), as_crash (w_b_find n test b) = c_b_find n h p b.
Proof.
  intros test h p H n [e|l]; cbn [w_b_find c_b_find].
  - apply (ac_ask test); [exact H|]. reflexivity.
  - apply ac_bind. intros es. now apply ac_find.
Qed.
Lemma ac_value_mut : forall n sh f e b k,
  as_crash (w_value_mut fused_hash n sh f e b k) =
  if sh then ucall n b (fun n => ucall n b (fun n => Ok (Done n (k (e_write f e), Some (e_val e)))))
  else Ok (Done n (k (e_write f e), Some (e_val e))).
Proof. intros n [|] f e b k; unfold w_value_mut; [|reflexivity]. apply ac_clone. reflexivity. Qed.
Lemma ac_b_get_mut : forall n sh q h f (b : hbucket K V),
  as_crash (w_b_get_mut fused_hash n sh q h f b) = c_b_get_mut borrow qeq n sh q h f b.
Proof.
  intros n sh q h f [e|l]; cbn [w_b_get_mut c_b_get_mut].
  - apply ac_ask; [apply fused_matches|]. intros n' [|]; [|reflexivity]. rewrite ac_value_mut. now destruct sh.
  - apply ac_wbind; [apply ac_remove_first, fused_matches|]. intros n' [l' [e|]]; [|reflexivity].
    rewrite ac_value_mut. now destruct sh.
Qed.
Lemma ac_b_insert : forall n e (b : hbucket K V), as_crash (w_b_insert fused_hash n e b) = c_b_insert keq n e b.
Proof.
  intros n e [o|l]; cbn [w_b_insert c_b_insert].
  - apply ac_ask; [apply fused_matches_key|]. intros n' [|]; reflexivity.
  - apply ac_wbind; [apply ac_remove_first, fused_matches_key|]. intros n' [l' o]. reflexivity.
Qed.
Lemma ac_b_remove : forall n q h (b : hbucket K V), as_crash (w_b_remove fused_hash n q h b) = c_b_remove borrow qeq n q h b.
Proof.
  intros n q h [o|l]; cbn [w_b_remove c_b_remove].
  - apply ac_ask; [apply fused_matches|]. intros n' [|]; reflexivity.
  - apply ac_wbind; [apply ac_remove_first, fused_matches|]. intros n' [l' o]. ac.
Qed.

Lemma ac_hn_get : forall fuel n q h (nd : hnode K V) d g,
  as_crash (w_hn_get ubits dbg fused_hash fuel n q h nd d g) = c_hn_get ubits dbg borrow qeq fuel n q h nd d g.
Proof.
  induction fuel as [|fuel IH]; intros n q h nd d g; cbn [w_hn_get c_hn_get]; [reflexivity|].
  destruct nd as [s|b]; [ac|]. apply ac_b_find, fused_matches.
Qed.
Lemma ac_hn_get_mut : forall fuel n sh q h f (nd : hnode K V) d g,
  as_crash (w_hn_get_mut ubits dbg fused_hash fuel n sh q h f nd d g) = c_hn_get_mut ubits dbg borrow qeq fuel n sh q h f nd d g.
Proof.
  induction fuel as [|fuel IH]; intros n sh q h f nd d g; cbn [w_hn_get_mut c_hn_get_mut]; [reflexivity|].
  destruct nd as [s|b]; ac. apply ac_b_get_mut.
Qed.
Lemma ac_hn_insert : forall fuel n e (nd : hnode K V) d g,
  as_crash (w_hn_insert ubits dbg fused_hash fuel n e nd d g) = c_hn_insert ubits dbg keq fuel n e nd d g.
Proof.
  induction fuel as [|fuel IH]; intros n e nd d g; cbn [w_hn_insert c_hn_insert]; [reflexivity|].
  destruct nd as [s|b]; [ac|]. apply ac_bind. intros oi. apply ac_wbind; [apply ac_b_find, fused_matches_key|]. intros n' o.
  ac; apply ac_b_insert.
Qed.
Lemma ac_hn_remove : forall fuel n q h (nd : hnode K V) d g,
  as_crash (w_hn_remove ubits dbg fused_hash fuel n q h nd d g) = c_hn_remove ubits dbg borrow qeq fuel n q h nd d g.
Proof.
  induction fuel as [|fuel IH]; intros n q h nd d g; cbn [w_hn_remove c_hn_remove]; [reflexivity|].
  destruct nd as [s|b]; ac. apply ac_b_remove.
Qed.

Variable fuel : nat.
Lemma ac_hm_step : forall n sh o (m : hmap K V),
  as_crash (w_hm_step ubits dbg fused_hash fuel n sh o m) = c_hm_step ubits dbg keq borrow qeq hash qhash fuel n sh o m.
Proof.
  intros n sh o m.
  assert (I : forall k v, as_crash (w_hm_insert_mut ubits dbg fused_hash fuel n m k v) = c_hm_insert_mut ubits dbg keq hash fuel n m k v).
  { intros k v. apply ac_wcall. intros n0. apply ac_wbind; [apply ac_hn_insert|]. intros n' [r b]. reflexivity. }
  assert (D : forall q, as_crash (w_hm_remove_mut ubits dbg fused_hash fuel n m q) = c_hm_remove_mut ubits dbg borrow qeq qhash fuel n m q).
  { intros q. apply ac_wcall. intros n0. apply ac_wbind; [apply ac_hn_remove|]. intros n' [r b]. ac. }
  assert (G : forall q f, as_crash (w_hm_get_mut ubits dbg fused_hash fuel n sh m q f) = c_hm_get_mut ubits dbg borrow qeq qhash fuel n sh m q f).
  { intros q f. apply ac_wcall. intros n0. apply ac_wbind; [apply ac_hn_get_mut|]. intros n' [r b]. ac. }
  assert (F : forall q, as_crash (w_hm_find ubits dbg fused_hash fuel n m q) = c_hm_find ubits dbg borrow qeq qhash fuel n m q).
  { intros q. apply ac_wcall. intros n0. apply ac_wbind; [apply ac_hn_get|]. intros n' r. ac. }
  destruct o; cbn [w_hm_step c_hm_step]; ac.
Qed.
End Hash.
