(** Common ground of the model: outcomes, machine arithmetic, iteration. *)
From Coq Require Import List NArith ZArith Arith Bool Lia.
Import ListNotations.

(** Outcome of running a piece of Rust code.  [Panic] is any panic (explicit,
    [unwrap], failed assertion, index out of bounds, checked overflow);
    [Diverge] is "recursion fuel exhausted". *)
Inductive res (A : Type) : Type :=
| Ok (a : A)
| Panic
| Diverge.
Arguments Ok {A} a.
Arguments Panic {A}.
Arguments Diverge {A}.

Definition bind {A B} (m : res A) (f : A -> res B) : res B :=
  match m with Ok a => f a | Panic => Panic | Diverge => Diverge end.

Declare Scope res_scope.
Delimit Scope res_scope with res.
Notation "'let!' x := m 'in' k" := (bind m (fun x => k))
  (at level 200, x pattern, m at level 100, k at level 200, right associativity) : res_scope.
Open Scope res_scope.

Definition rmap {A B} (f : A -> B) (m : res A) : res B := bind m (fun a => Ok (f a)).

Lemma bind_Ok : forall A B (m : res A) (f : A -> res B) b,
  bind m f = Ok b -> exists a, m = Ok a /\ f a = Ok b.
Proof. intros A B [a| |] f b H; simpl in H; try discriminate; eauto. Qed.

(** Length counters ([usize]) are modelled as unbounded naturals; a subtraction that
    would underflow is [Panic] whatever the build profile.  This is stricter than the
    release profile (which would wrap), so a theorem that excludes [Panic] covers both. *)
Definition csub (a b : nat) : res nat :=
  if b <=? a then Ok (a - b) else Panic.

Lemma csub_S : forall n, csub (S n) 1 = Ok n.
Proof. intros; unfold csub; simpl. now rewrite Nat.sub_0_r. Qed.

Lemma csub_ok : forall a b, b <= a -> csub a b = Ok (a - b).
Proof. intros; unfold csub. destruct (Nat.leb_spec b a); [reflexivity|lia]. Qed.

(** [Option::unwrap] / [expect]. *)
Definition unwrap {A} (o : option A) : res A :=
  match o with Some a => Ok a | None => Panic end.

(** [debug_assert!(b)]: checked only when [dbg] is set. *)
Definition debug_assert (dbg b : bool) : res unit :=
  if dbg && negb b then Panic else Ok tt.

(** ** Machine words.  A [usize] is an [N] below [2^ubits]; [dbg] selects the build
    profile: [true] has overflow checks (panic), [false] wraps / masks the shift
    amount as release code does. *)
Section Word.
Variable ubits : N.
Variable dbg : bool.
Local Open Scope N_scope.

Definition wrap (x : N) : N := x mod 2 ^ ubits.

(** [a << s] on [usize]: the shift amount is checked against the width, bits shifted
    out are lost silently. *)
Definition ushl (a s : N) : res N :=
  if s <? ubits then Ok (wrap (N.shiftl a s))
  else if dbg then Panic else Ok (wrap (N.shiftl a (s mod ubits))).

(** [a >> s] on [usize]. *)
Definition ushr (a s : N) : res N :=
  if s <? ubits then Ok (N.shiftr a s)
  else if dbg then Panic else Ok (N.shiftr a (s mod ubits)).

Definition usub (a b : N) : res N :=
  if b <=? a then Ok (a - b)
  else if dbg then Panic else Ok (wrap (a + 2 ^ ubits - b)).

Definition uadd (a b : N) : res N :=
  if a + b <? 2 ^ ubits then Ok (a + b)
  else if dbg then Panic else Ok (wrap (a + b)).

Definition umul (a b : N) : res N :=
  if a * b <? 2 ^ ubits then Ok (a * b)
  else if dbg then Panic else Ok (wrap (a * b)).
End Word.

(** ** Iterators as state machines. *)

(** Draining an iterator: call [next] until it returns [None].  [Diverge] if that
    takes more than [fuel] calls. *)
Fixpoint collect {St A : Type} (next : St -> res (option A * St)) (fuel : nat) (s : St)
  : res (list A) :=
  match fuel with
  | O => Diverge
  | S fuel' =>
      let! (o, s') := next s in
      match o with
      | None => Ok []
      | Some a => let! r := collect next fuel' s' in Ok (a :: r)
      end
  end.

(** [k] calls of [next], recording before each the size hint and then its result. *)
Fixpoint runs {St A : Type} (next : St -> res (option A * St)) (hint : St -> res nat)
  (k : nat) (s : St) : res (list (nat * option A)) :=
  match k with
  | O => Ok []
  | S k' =>
      let! h := hint s in
      let! (o, s') := next s in
      let! r := runs next hint k' s' in
      Ok ((h, o) :: r)
  end.

(** A sequence of calls from either end: [false] is [next], [true] is [next_back]. *)
Fixpoint runs2 {St A : Type} (next next_back : St -> res (option A * St)) (hint : St -> res nat)
  (ds : list bool) (s : St) : res (list (nat * option A)) :=
  match ds with
  | [] => Ok []
  | d :: ds' =>
      let! h := hint s in
      let! (o, s') := (if d then next_back s else next s) in
      let! r := runs2 next next_back hint ds' s' in
      Ok ((h, o) :: r)
  end.

(** ** Histories: running a list of operations, collecting what each returns. *)
Fixpoint exec_m {S O X : Type} (step : O -> S -> res (S * X)) (ops : list O) (s : S)
  : res (S * list X) :=
  match ops with
  | [] => Ok (s, [])
  | o :: ops' =>
      let! (s', x) := step o s in
      let! (s'', xs) := exec_m step ops' s' in
      Ok (s'', x :: xs)
  end.
