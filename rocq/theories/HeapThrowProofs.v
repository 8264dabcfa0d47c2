(** * Dropping with panics leaves the heap that dropping without them leaves *)
From Coq Require Import List NArith Arith Lia Bool Permutation.
From Verif Require Import Base HeapModel HeapProofs HeapSafe HeapClient HeapDepth HeapSpace HeapSpaceColl HeapHolds HeapList HeapVec HeapRB HeapHash HeapThrow.
Import ListNotations.
Local Open Scope prog_scope.

Section Throw.
Context {C : Type}.
Variable booms : C -> nat.
Notation P := (prog C).

(** [bp] does to the heap what [p] does, and panics or aborts according to how many panicking values go. *)
Definition as_drop (p : P unit) (bp : bool -> P outcome) : Prop := forall h h', run h p = Some (h', tt) ->
  exists k, weigh booms h = k + weigh booms h' /\
    forall u, match hit k u with
              | Went u' => run h (bp u) = Some (h', Went u')
              | Aborted => exists h2, run h (bp u) = Some (h2, Aborted)
              end.

Lemma hit_add : forall i j u, hit (i + j) u = match hit i u with Went u' => hit j u' | Aborted => Aborted end.
Proof. induction i as [|i IH]; intros j u; cbn [hit Nat.add]; [reflexivity|]. destruct u; [reflexivity|apply IH]. Qed.

Lemma weigh_set : forall (h : heap C) a n c x, get h a = Some (Full n c) ->
  weigh booms h + match x with Some (Full _ d) => booms d | _ => 0 end = booms c + weigh booms (set h a x).
Proof. apply weigh_put. Qed.

Lemma as_ret : as_drop (Ret tt) (fun u => Ret (Went u)).
Proof. intros h h' E. cbn in E. inversion E; subst. exists 0. split; [reflexivity|]. intros u. reflexivity. Qed.
Lemma as_leave : as_drop (Leave (Ret tt)) (fun u => Leave (Ret (Went u))).
Proof. exact as_ret. Qed.
Lemma as_fail : forall bp, as_drop Fail bp.
Proof. intros bp h h' E. discriminate E. Qed.
Lemma as_bind : forall p bp q bq, as_drop p bp -> as_drop q bq ->
  as_drop (pbind p (fun _ => q)) (fun u => pbind (bp u) (fun o => onward o bq)).
Proof.
  intros p bp q bq Hp Hq h h' E. rewrite run_pbind in E. destruct (run h p) as [[h1 []]|] eqn:E1; [|discriminate].
  destruct (Hp _ _ E1) as (i & Wi & Bi), (Hq _ _ E) as (j & Wj & Bj). exists (i + j). split; [lia|]. intros u.
  rewrite hit_add. specialize (Bi u). destruct (hit i u) as [u'|].
  - specialize (Bj u'). rewrite run_pbind, Bi. cbn [onward]. exact Bj.
  - destruct Bi as (h2 & Bi). exists h2. rewrite run_pbind, Bi. reflexivity.
Qed.
Lemma as_lift : forall A (r : res A) (q : A -> P unit) bq, (forall x, as_drop (q x) (bq x)) ->
  as_drop (pbind (lift r) q) (fun u => pbind (lift r) (fun x => bq x u)).
Proof. intros A r q bq H. destruct r; cbn [lift pbind]; [apply H|apply as_fail..]. Qed.
Lemma as_ext : forall p bp p' bp', as_drop p bp -> (forall h, run h p' = run h p) -> (forall h u, run h (bp' u) = run h (bp u)) -> as_drop p' bp'.
Proof.
  intros p bp p' bp' H Ep Eb h h' E. rewrite Ep in E. destruct (H _ _ E) as (k & W & B). exists k. split; [exact W|]. intros u. specialize (B u).
  destruct (hit k u); rewrite Eb; exact B.
Qed.
Lemma as_each : forall d bd l, (forall a, In a l -> as_drop (d a) (bd a)) -> as_drop (each d l) (each_throw bd l).
Proof.
  intros d bd l. induction l as [|a l IH]; intros H; cbn [each each_throw]; [apply as_ret|].
  apply as_bind; [apply H; now left|]. apply IH. intros b Hb. apply H. now right.
Qed.
(** A pointer is given up; when it was the last one the contents go. *)
Lemma as_dec : forall a (k : C -> P unit) (bk : C -> bool -> P outcome),
  (forall c, exists own, own = booms c /\ forall h h', run h (k c) = Some (h', tt) -> exists j, weigh booms h = j + weigh booms h' /\
     forall u, match hit (own + j) u with
              | Went u' => run h (bk c u) = Some (h', Went u')
              | Aborted => exists h2, run h (bk c u) = Some (h2, Aborted)
              end) ->
  as_drop (Dec a (fun r => match r with None => Ret tt | Some c => Enter (k c) end))
          (fun u => Dec a (fun r => match r with None => Ret (Went u) | Some c => Enter (bk c u) end)).
Proof.
  intros a k bk H h h' E. cbn [run] in *. destruct (get h a) as [[[|[|n]] c|]|] eqn:G; try discriminate E.
  - destruct (H c) as (own & Ho & Hc). destruct (Hc _ _ E) as (j & W & B). exists (own + j). split; [|exact B].
    pose proof (weigh_set h a 1 c None G). cbn beta iota in *. lia.
  - cbn [run] in E. inversion E; subst. exists 0. split; [|reflexivity].
    pose proof (weigh_set h a (S (S n)) c (Some (Full (S n) c)) G). cbn in *. lia.
Qed.

Section Glue.
Variable kids : C -> list addr.
Lemma as_ptr : forall f a, as_drop (drop_ptr kids f a) (throw_ptr kids booms f a).
Proof.
  induction f as [|f IH]; intros a; cbn [drop_ptr throw_ptr]; [apply as_fail|].
  apply as_dec with (k := fun c => pbind (each (drop_ptr kids f) (kids c)) (fun _ => Leave (Ret tt)))
    (bk := fun c u => onward (hit (booms c) u) (fun u => pbind (each_throw (throw_ptr kids booms f) (kids c) u) (fun o => onward o (fun u => Leave (Ret (Went u)))))).
  intros c. exists (booms c). split; [reflexivity|]. intros h h' E.
  assert (Hk : as_drop (pbind (each (drop_ptr kids f) (kids c)) (fun _ => Leave (Ret tt)))
    (fun u => pbind (each_throw (throw_ptr kids booms f) (kids c) u) (fun o => onward o (fun u => Leave (Ret (Went u)))))).
  { apply as_bind; [apply as_each; auto|]. exact as_ret. }
  destruct (Hk _ _ E) as (j & W & B). exists j. split; [exact W|]. intros u. rewrite hit_add.
  destruct (hit (booms c) u) as [u'|]; cbn [onward]; [apply B|]. now exists h.
Qed.
Lemma as_opt : forall f o, as_drop (drop_opt kids f o) (throw_opt kids booms f o).
Proof. intros f [a|]; [apply as_ptr|apply as_ret]. Qed.

(** More nested calls than needed make no difference. *)
Lemma each_more : forall (d d' : addr -> P unit) l, (forall a h h', run h (d a) = Some (h', tt) -> run h (d' a) = Some (h', tt)) ->
  forall h h', run h (each d l) = Some (h', tt) -> run h (each d' l) = Some (h', tt).
Proof.
  intros d d' l H. induction l as [|a l IH]; intros h h' E; [exact E|]. cbn [each] in *. rewrite run_pbind in *.
  destruct (run h (d a)) as [[h1 []]|] eqn:E1; [|discriminate]. rewrite (H _ _ _ E1). now apply IH.
Qed.
Lemma ptr_more : forall f g a h h', f <= g -> run h (drop_ptr kids f a) = Some (h', tt) -> run h (drop_ptr kids g a) = Some (h', tt).
Proof.
  induction f as [|f IH]; intros g a h h' L E; [discriminate E|]. destruct g as [|g]; [lia|]. cbn [drop_ptr run] in *.
  destruct (get h a) as [[[|[|n]] c|]|]; try discriminate E; [|exact E]. cbn [run] in *. rewrite run_pbind in *.
  destruct (run (set h a None) (each (drop_ptr kids f) (kids c))) as [[h1 []]|] eqn:E1; [|discriminate].
  rewrite (each_more _ (drop_ptr kids g) (kids c) (fun a h h' => IH g a h h' ltac:(lia)) _ _ E1). exact E.
Qed.

Variable isN : C -> option (addr * option addr).
Variable ef : nat.
Hypothesis kidsN : forall c v nx, isN c = Some (v, nx) -> kids c = v :: opt_list nx.
Hypothesis boomN : forall c v nx, isN c = Some (v, nx) -> booms c = 0.

(** Drop glue gives up the pointers of a chain in the order the loop does. *)
Lemma loop_glue : forall f fd g o h h', f + ef <= g ->
  run h (hl_drop_loop kids isN ef f fd o) = Some (h', tt) -> run h (drop_opt kids g o) = Some (h', tt).
Proof using kidsN.
  induction f as [|f IH]; intros fd g [a|] h h' L E; try discriminate E; try exact E.
  cbn [hl_drop_loop drop_opt run] in *. destruct g as [|g]; [lia|]. cbn [drop_ptr run].
  destruct (get h a) as [[[|[|n]] c|]|] eqn:G; try discriminate E.
  - destruct fd as [|fd]; cbn [drop_ptr run] in E; [discriminate E|]. rewrite G in E. discriminate E.
  - destruct (isN c) as [[v nx]|] eqn:N; [|discriminate E]. cbn [run]. rewrite (kidsN _ _ _ N), run_pbind. cbn [each]. rewrite run_pbind.
    rewrite run_pbind in E. destruct (run (set h a None) (drop_ptr kids ef v)) as [[h1 []]|] eqn:E1; [|discriminate].
    rewrite (ptr_more ef g _ _ _ ltac:(lia) E1). assert (E2 : run h1 (drop_opt kids g nx) = Some (h', tt)) by (apply IH with (fd := fd); [lia|exact E]).
    destruct nx as [b|]; cbn [opt_list each drop_opt] in *; [rewrite run_pbind, E2|cbn [run] in *; inversion E2]; reflexivity.
  - destruct fd as [|fd]; cbn [drop_ptr run] in E; [discriminate E|]. rewrite G in E. exact E.
Qed.
Lemma as_loop : forall f fd o, f + ef <= fd -> as_drop (hl_drop_loop kids isN ef f fd o) (throw_loop kids booms isN ef f fd o).
Proof using kidsN boomN.
  induction f as [|f IH]; intros fd [a|] L; cbn [hl_drop_loop throw_loop]; try apply as_ret; try apply as_fail.
  intros h h' E. cbn [run] in *. destruct (get h a) as [[[|[|n]] c|]|] eqn:G; try discriminate E.
  - exfalso. destruct fd as [|fd]; cbn [drop_ptr run] in E; [discriminate E|]. rewrite G in E. discriminate E.
  - destruct (isN c) as [[v nx]|] eqn:N; [|discriminate E].
    rewrite run_pbind in E. destruct (run (set h a None) (drop_ptr kids ef v)) as [[h1 []]|] eqn:E1; [|discriminate].
    destruct (as_ptr ef v _ _ E1) as (i & Wi & Bi). destruct (IH fd nx ltac:(lia) _ _ E) as (j & Wj & Bj).
    destruct (as_opt fd nx _ _ (loop_glue f fd fd nx _ _ ltac:(lia) E)) as (j' & Wj' & Bj'). assert (j' = j) as -> by lia.
    exists (i + j). split.
    + pose proof (weigh_set h a 1 c None G) as W. rewrite (boomN _ _ _ N) in W. lia.
    + intros u. rewrite hit_add. specialize (Bi u). destruct (hit i u) as [u'|].
      * specialize (Bj u'). specialize (Bj' u'). rewrite run_pbind, Bi. cbn [onward]. destruct (eqb u u'); assumption.
      * destruct Bi as (h2 & Bi). exists h2. rewrite run_pbind, Bi. reflexivity.
  - destruct (as_ptr fd a _ _ E) as (k & W & B). exists k. split; [exact W|]. exact B.
Qed.
Lemma as_list : forall l, as_drop (hl_drop kids isN ef l) (throw_list kids booms isN ef l).
Proof using kidsN boomN. intros l. unfold hl_drop, throw_list. apply as_bind; [now apply as_loop|apply as_opt]. Qed.
End Glue.
End Throw.

Lemma as_hlp : forall T (tb : T -> bool) l, as_drop (l_booms tb) (hlp_drop l) (hlp_throw tb l).
Proof. intros T tb l. apply as_list; intros [v' nx'|x] v nx E; inversion E; reflexivity. Qed.
Lemma as_hq : forall T (tb : T -> bool) q, as_drop (l_booms tb) (hq_drop q) (hq_throw tb q).
Proof. intros T tb q. unfold hq_drop, hq_throw. apply as_bind; apply as_hlp. Qed.
Lemma as_hv : forall ubits dbg T (tb : T -> bool) v, as_drop (v_booms tb) (hv_drop ubits dbg v) (hv_throw ubits dbg tb v).
Proof. intros ubits dbg T tb v. unfold hv_drop, hv_throw. apply as_lift. intros x. apply as_ptr. Qed.
Lemma as_hb : forall K V (kb : K -> bool) (vb : V -> bool) m, as_drop (r_booms kb vb) (hb_drop m) (hb_throw kb vb m).
Proof. intros K V kb vb m. apply as_opt. Qed.
Lemma as_tdrop : forall K V (kb : K -> bool) (vb : V -> bool) f a, as_drop (t_booms kb vb) (tdrop f a) (tthrow kb vb f a).
Proof.
  intros K V kb vb. induction f as [|f IH]; intros a; cbn [tdrop tthrow]; [apply as_fail|].
  apply as_dec with (k := fun c => pbind (tglue (tdrop f) c) (fun _ => Leave (Ret tt)))
    (bk := fun c u => pbind (throw_node kb vb (tthrow kb vb f) c u) (fun o => onward o (fun u => Leave (Ret (Went u))))).
  intros c. exists (t_booms kb vb c). split; [reflexivity|]. intros h h' E.
  destruct c as [s|e|l|v nx|e|e]; cbn [tglue pbind] in E; try discriminate E; cbn [t_booms throw_node Nat.add];
    (refine (as_bind _ _ _ _ _ _ _ h h' E); [|exact (as_ret _)]).
  - apply as_each. auto.
  - apply as_ptr.
  - apply as_list; intros c v nx Ec; destruct c; inversion Ec; reflexivity.
Qed.
Lemma as_hh : forall K V (kb : K -> bool) (vb : V -> bool) m, as_drop (t_booms kb vb) (hh_drop m) (hh_throw kb vb m).
Proof. intros. apply as_tdrop. Qed.

(** ** How deep it nests

    A drop in which no value panics nests as without panics; for drop glue alone ([glue]) this is so also
    when a value panics.  (The loop of [Drop for List] is left by a panic, and glue drops the rest: C39.) *)
Section Deep.
Context {C : Type} (booms : C -> nat) (glue : bool).
Notation P := (prog C).

Definition as_deep (p : P unit) (bp : bool -> P outcome) : Prop := forall cur mx h h' cur' mx' k u u',
  depth_run cur mx h p = Some (h', tt, cur', mx') -> weigh booms h = k + weigh booms h' -> k = 0 \/ glue = true -> hit k u = Went u' ->
  depth_run cur mx h (bp u) = Some (h', Went u', cur', mx').

Lemma deep_runs : forall A (p : P A) cur mx h h' x cur' mx', depth_run cur mx h p = Some (h', x, cur', mx') -> run h p = Some (h', x).
Proof using.
  intros A p cur mx h h' x cur' mx' E. pose proof (depth_run_run A p cur mx h) as R. destruct (run h p) as [[h1 y]|]; [|congruence].
  destruct R as (c & m & R). rewrite R in E. inversion E; subst. reflexivity.
Qed.
Lemma hit_split : forall i j u u', hit (i + j) u = Went u' -> exists u1, hit i u = Went u1 /\ hit j u1 = Went u'.
Proof using. intros i j u u' H. rewrite hit_add in H. destruct (hit i u) as [u1|]; [now exists u1|discriminate]. Qed.

Lemma deep_ret : as_deep (Ret tt) (fun u => Ret (Went u)).
Proof using. intros cur mx h h' cur' mx' k u u' E W _ H. cbn in *. inversion E; subst. assert (k = 0) as -> by lia. cbn in H. inversion H; subst. reflexivity. Qed.
Lemma deep_leave : as_deep (Leave (Ret tt)) (fun u => Leave (Ret (Went u))).
Proof using. intros cur mx h h' cur' mx' k u u' E W _ H. cbn in *. inversion E; subst. assert (k = 0) as -> by lia. cbn in H. inversion H; subst. reflexivity. Qed.
Lemma deep_fail : forall bp, as_deep Fail bp.
Proof using. intros bp cur mx h h' cur' mx' k u u' E. discriminate E. Qed.
Lemma deep_bind : forall p bp q bq, as_drop booms p bp -> as_drop booms q bq -> as_deep p bp -> as_deep q bq ->
  as_deep (pbind p (fun _ => q)) (fun u => pbind (bp u) (fun o => onward o bq)).
Proof using.
  intros p bp q bq Ap Aq Hp Hq cur mx h h' cur' mx' k u u' E W G H. rewrite depth_run_bind in *.
  destruct (depth_run cur mx h p) as [[[[h1 []] c1] m1]|] eqn:E1; [|discriminate].
  destruct (Ap _ _ (deep_runs _ _ _ _ _ _ _ _ _ E1)) as (i & Wi & _), (Aq _ _ (deep_runs _ _ _ _ _ _ _ _ _ E)) as (j & Wj & _).
  assert (k = i + j) as -> by lia. destruct (hit_split _ _ _ _ H) as (u1 & Hi & Hj).
  rewrite (Hp _ _ _ _ _ _ i u u1 E1 Wi ltac:(destruct G; [left; lia|now right]) Hi). cbn [onward].
  exact (Hq _ _ _ _ _ _ j u1 u' E Wj ltac:(destruct G; [left; lia|now right]) Hj).
Qed.
Lemma deep_lift : forall A (r : res A) (q : A -> P unit) bq, (forall x, as_deep (q x) (bq x)) ->
  as_deep (pbind (lift r) q) (fun u => pbind (lift r) (fun x => bq x u)).
Proof using. intros A r q bq H. destruct r; cbn [lift pbind]; [apply H|apply deep_fail..]. Qed.
Lemma deep_each : forall d bd l, (forall a, In a l -> as_drop booms (d a) (bd a)) -> (forall a, In a l -> as_deep (d a) (bd a)) ->
  as_deep (each d l) (each_throw bd l).
Proof using.
  intros d bd l. induction l as [|a l IH]; intros A H; cbn [each each_throw]; [apply deep_ret|].
  apply deep_bind; [apply A; now left|apply as_each; intros b Hb; apply A; now right|apply H; now left|].
  apply IH; intros b Hb; [apply A|apply H]; now right.
Qed.
Lemma deep_dec : forall a (k : C -> P unit) (bk : C -> bool -> P outcome),
  (forall c, as_drop booms (k c) (bk c) /\ as_deep (k c) (bk c)) ->
  as_deep (Dec a (fun r => match r with None => Ret tt | Some c => Enter (k c) end))
          (fun u => Dec a (fun r => match r with None => Ret (Went u) | Some c => Enter (onward (hit (booms c) u) (bk c)) end)).
Proof using.
  intros a k bk H cur mx h h' cur' mx' n u u' E W G Hn. cbn [depth_run] in *.
  destruct (get h a) as [[[|[|m]] c|]|] eqn:Ea; try discriminate E.
  - destruct (H c) as (Ac & Dc). destruct (Ac _ _ (deep_runs _ _ _ _ _ _ _ _ _ E)) as (j & Wj & _).
    pose proof (weigh_set booms h a 1 c None Ea) as Ws. cbn beta iota in Ws. assert (n = booms c + j) as -> by lia.
    destruct (hit_split _ _ _ _ Hn) as (u1 & H1 & H2). cbn [depth_run] in *. rewrite H1. cbn [onward].
    exact (Dc _ _ _ _ _ _ j u1 u' E Wj ltac:(destruct G; [left; lia|now right]) H2).
  - cbn [depth_run] in *. inversion E; subst. pose proof (weigh_set booms h a (S (S m)) c (Some (Full (S m) c)) Ea) as Ws. cbn beta iota in Ws.
    assert (n = 0) as -> by lia. cbn in Hn. inversion Hn; subst. reflexivity.
Qed.

Section Glue.
Variable kids : C -> list addr.
Lemma deep_ptr : forall f a, as_deep (drop_ptr kids f a) (throw_ptr kids booms f a).
Proof using.
  induction f as [|f IH]; intros a; cbn [drop_ptr throw_ptr]; [apply deep_fail|].
  apply deep_dec with (k := fun c => pbind (each (drop_ptr kids f) (kids c)) (fun _ => Leave (Ret tt)))
    (bk := fun c u => pbind (each_throw (throw_ptr kids booms f) (kids c) u) (fun o => onward o (fun u => Leave (Ret (Went u))))).
  intros c. split.
  - apply as_bind; [apply as_each; intros; apply as_ptr|]. exact (as_ret booms).
  - apply deep_bind; [apply as_each; intros; apply as_ptr|exact (as_ret booms)|apply deep_each; intros; [apply as_ptr|apply IH]|apply deep_leave].
Qed.
Lemma deep_opt : forall f o, as_deep (drop_opt kids f o) (throw_opt kids booms f o).
Proof using. intros f [a|]; [apply deep_ptr|apply deep_ret]. Qed.

Variable isN : C -> option (addr * option addr).
Variable ef : nat.
Hypothesis kidsN : forall c v nx, isN c = Some (v, nx) -> kids c = v :: opt_list nx.
Hypothesis boomN : forall c v nx, isN c = Some (v, nx) -> booms c = 0.
Hypothesis loops : glue = false.
Lemma deep_loop : forall f fd o, f + ef <= fd -> as_deep (hl_drop_loop kids isN ef f fd o) (throw_loop kids booms isN ef f fd o).
Proof using kidsN boomN loops.
  induction f as [|f IH]; intros fd [a|] L; cbn [hl_drop_loop throw_loop]; try apply deep_ret; try apply deep_fail.
  intros cur mx h h' cur' mx' k u u' E W G H. destruct G as [->|G]; [|congruence]. cbn in H. inversion H; subst u'. cbn [depth_run] in *.
  destruct (get h a) as [[[|[|n]] c|]|] eqn:Ea; try discriminate E.
  - exfalso. destruct fd as [|fd]; cbn [drop_ptr depth_run] in E; [discriminate E|]. rewrite Ea in E. discriminate E.
  - destruct (isN c) as [[v nx]|] eqn:N; [|discriminate E]. rewrite depth_run_bind in *.
    destruct (depth_run cur mx (set h a None) (drop_ptr kids ef v)) as [[[[h1 []] c1] m1]|] eqn:E1; [|discriminate].
    destruct (as_ptr booms kids ef v _ _ (deep_runs _ _ _ _ _ _ _ _ _ E1)) as (i & Wi & _).
    destruct (as_loop booms kids isN ef kidsN boomN f fd nx ltac:(lia) _ _ (deep_runs _ _ _ _ _ _ _ _ _ E)) as (j & Wj & _).
    pose proof (weigh_set booms h a 1 c None Ea) as Ws. rewrite (boomN _ _ _ N) in Ws. cbn beta iota in Ws. assert (i = 0) as -> by lia. assert (j = 0) as -> by lia.
    rewrite (deep_ptr ef v _ _ _ _ _ _ 0 u u E1 Wi (or_introl eq_refl) eq_refl). cbn [onward]. rewrite eqb_reflx.
    exact (IH fd nx ltac:(lia) _ _ _ _ _ _ 0 u u E Wj (or_introl eq_refl) eq_refl).
  - exact (deep_ptr fd a _ _ _ _ _ _ 0 u u E W (or_introl eq_refl) eq_refl).
Qed.
Lemma deep_list : forall l, as_deep (hl_drop kids isN ef l) (throw_list kids booms isN ef l).
Proof using kidsN boomN loops.
  intros l. unfold hl_drop, throw_list. apply deep_bind; [now apply as_loop|apply as_opt|now apply deep_loop|apply deep_opt].
Qed.
End Glue.
End Deep.

Lemma deep_hlp : forall T (tb : T -> bool) l, as_deep (l_booms tb) false (hlp_drop l) (hlp_throw tb l).
Proof. intros T tb l. apply deep_list; [| |reflexivity]; intros [v' nx'|x] v nx E; inversion E; reflexivity. Qed.
Lemma deep_hq : forall T (tb : T -> bool) q, as_deep (l_booms tb) false (hq_drop q) (hq_throw tb q).
Proof. intros T tb q. unfold hq_drop, hq_throw. apply deep_bind; apply as_hlp || apply deep_hlp. Qed.
Lemma deep_hv : forall ubits dbg T (tb : T -> bool) v, as_deep (v_booms tb) true (hv_drop ubits dbg v) (hv_throw ubits dbg tb v).
Proof. intros ubits dbg T tb v. unfold hv_drop, hv_throw. apply deep_lift. intros x. apply deep_ptr. Qed.
Lemma deep_hb : forall K V (kb : K -> bool) (vb : V -> bool) m, as_deep (r_booms kb vb) true (hb_drop m) (hb_throw kb vb m).
Proof. intros K V kb vb m. apply deep_opt. Qed.
Lemma deep_tdrop : forall K V (kb : K -> bool) (vb : V -> bool) f a, as_deep (t_booms kb vb) false (tdrop f a) (tthrow kb vb f a).
Proof.
  intros K V kb vb. induction f as [|f IH]; intros a; cbn [tdrop tthrow]; [apply deep_fail|].
  intros cur mx h h' cur' mx' k u u' E W G H. destruct G as [->|G]; [|discriminate]. cbn in H. inversion H; subst u'. cbn [depth_run] in *.
  destruct (get h a) as [[[|[|m]] c|]|] eqn:Ea; try discriminate E; [|cbn [depth_run] in *; inversion E; subst; reflexivity].
  cbn [depth_run] in *. pose proof (weigh_set (t_booms kb vb) h a 1 c None Ea) as Ws. cbn beta iota in Ws.
  assert (Z : as_drop (t_booms kb vb) (tglue (tdrop f) c) (throw_node kb vb (tthrow kb vb f) c) /\
              as_deep (t_booms kb vb) false (tglue (tdrop f) c) (throw_node kb vb (tthrow kb vb f) c)).
  { destruct c as [s|e|l|v nx|e|e]; cbn [tglue throw_node]; split; try apply as_fail; try apply deep_fail; try apply as_ptr; try apply deep_ptr.
    - apply as_each. intros. apply as_tdrop.
    - apply deep_each; intros; [apply as_tdrop|apply IH].
    - apply as_list; intros c v nx Ec; destruct c; inversion Ec; reflexivity.
    - apply deep_list; [| |reflexivity]; intros c v nx Ec; destruct c; inversion Ec; reflexivity. }
  destruct Z as (Za & Zd).
  assert (Zb : as_drop (t_booms kb vb) (pbind (tglue (tdrop f) c) (fun _ => Leave (Ret tt)))
    (fun u => pbind (throw_node kb vb (tthrow kb vb f) c u) (fun o => onward o (fun u => Leave (Ret (Went u)))))) by (apply as_bind; [exact Za|exact (as_ret _)]).
  destruct (Zb _ _ (deep_runs _ _ _ _ _ _ _ _ _ E)) as (j & Wj & _). assert (j = 0) as -> by lia.
  refine (deep_bind _ false _ _ _ _ Za (as_leave _) Zd (deep_leave _ _) _ _ _ _ _ _ 0 u u E Wj (or_introl eq_refl) eq_refl).
Qed.
Lemma deep_hh : forall K V (kb : K -> bool) (vb : V -> bool) m, as_deep (t_booms kb vb) false (hh_drop m) (hh_throw kb vb m).
Proof. intros. apply deep_tdrop. Qed.

(** ** The client *)
Section Client.
Context {C Coll Op Out : Type}.
Context (hnew : prog C Coll) (hclone : Coll -> prog C Coll) (hdrop : Coll -> prog C unit) (hthrow : Coll -> bool -> prog C outcome)
        (hop : Op -> Coll -> prog C (Coll * Out)) (booms : C -> nat).
Hypothesis Hd : forall c, as_drop booms (hdrop c) (hthrow c).

(** How many panicking values each drop of the client without panics releases. *)
Fixpoint releases (l : list (cmd Op)) (rs : list (option Coll)) (h : heap C) : list nat :=
  match l with
  | [] => []
  | CNew :: l' => match run h hnew with Some (h1, c) => releases l' (rs ++ [Some c]) h1 | None => [] end
  | CClone i :: l' =>
      match nth_error rs i with
      | Some (Some c) => match run h (hclone c) with Some (h1, c') => releases l' (rs ++ [Some c']) h1 | None => [] end
      | _ => releases l' rs h
      end
  | COp i o :: l' =>
      match nth_error rs i with
      | Some (Some c) => match run h (hop o c) with Some (h1, (c', _)) => releases l' (upd rs i (Some c')) h1 | None => [] end
      | _ => releases l' rs h
      end
  | CDrop i :: l' =>
      match nth_error rs i with
      | Some (Some c) =>
          match run h (hdrop c) with
          | Some (h1, _) => weigh booms h - weigh booms h1 :: releases l' (upd rs i None) h1
          | None => []
          end
      | _ => releases l' rs h
      end
  end.

Lemma tclient_as : forall l rs h h' rs' xs,
  run h (hclient hnew hclone hdrop hop l rs) = Some (h', (rs', xs)) ->
  let ks := releases l rs h in
  (Forall (fun k => k <= 1) ks -> run h (tclient hnew hclone hthrow hop l rs) = Some (h', Some (rs', xs, map (Nat.eqb 1) ks))) /\
  (Exists (fun k => 2 <= k) ks -> exists h2, run h (tclient hnew hclone hthrow hop l rs) = Some (h2, None)).
Proof using Hd.
  induction l as [|x l IH]; intros rs h h' rs' xs E; cbn zeta in *.
  - cbn in *. inversion E; subst. split; [reflexivity|]. intros X. inversion X.
  - destruct x as [|i|i o|i]; cbn [hclient tclient releases] in *.
    + rewrite run_pbind in *. destruct (run h hnew) as [[h1 c]|]; [|discriminate]. now apply IH.
    + destruct (nth_error rs i) as [[c|]|]; [|now apply IH..]. rewrite run_pbind in *.
      destruct (run h (hclone c)) as [[h1 c']|]; [|discriminate]. now apply IH.
    + destruct (nth_error rs i) as [[c|]|]; [|now apply IH..]. rewrite run_pbind in *.
      destruct (run h (hop o c)) as [[h1 [c' y]]|]; [|discriminate]. rewrite run_pbind in *.
      destruct (run h1 (hclient hnew hclone hdrop hop l (upd rs i (Some c')))) as [[h2 [rs2 xs2]]|] eqn:E2; [|discriminate].
      cbn [run] in E. inversion E; subst. destruct (IH _ _ _ _ _ E2) as (A & B). split.
      * intros Hk. rewrite (A Hk). reflexivity.
      * intros Hk. destruct (B Hk) as (h3 & ->). now exists h3.
    + destruct (nth_error rs i) as [[c|]|]; [|now apply IH..]. rewrite run_pbind in *.
      destruct (run h (hdrop c)) as [[h1 []]|] eqn:E1; [|discriminate]. destruct (Hd c _ _ E1) as (k & Wk & D). specialize (D false).
      replace (weigh booms h - weigh booms h1) with k by lia. destruct (IH _ _ _ _ _ E) as (A & B). split.
      * intros Hk. apply Forall_cons_iff in Hk as (L & Hk). destruct k as [|[|k]]; [| |lia]; cbn [hit] in D; rewrite D, run_pbind, (A Hk); reflexivity.
      * intros Hk. destruct k as [|[|k]]; cbn [hit] in D.
        -- apply Exists_cons in Hk as [L|Hk]; [lia|]. destruct (B Hk) as (h3 & E3). rewrite D, run_pbind, E3. now exists h3.
        -- apply Exists_cons in Hk as [L|Hk]; [lia|]. destruct (B Hk) as (h3 & E3). rewrite D, run_pbind, E3. now exists h3.
        -- destruct D as (h2 & ->). now exists h2.
Qed.
End Client.

(** ** What a drop releases *)
Section Released.
Context {C : Type} (kids : C -> list addr).
Notation own := (@own C).

Lemma pnodes_get : forall h (t : ptree), phys kids h t -> forall a c, In (a, c) (pnodes t) -> exists n, get h a = Some (Full n c).
Proof.
  intros h t. induction t as [b c ts IH] using (@ptree_rect2 C). intros Ph a d I. rewrite phys_eq in Ph. destruct Ph as ((n & E) & _ & F).
  cbn [pnodes] in I. destruct I as [I|I]; [inversion I; subst; eauto|]. apply in_flat_map in I. destruct I as (t & It & Ia).
  rewrite Forall_forall in IH, F. exact (IH t It (F t It) a d Ia).
Qed.
Lemma at_from_get : forall (h : heap C) i a n c, get h a = Some (Full n c) -> In (i + a, c) (at_from i h).
Proof.
  induction h as [|x h IH]; intros i [|a] n c E; unfold get in E; cbn [nth_error] in E; try discriminate.
  - destruct x as [x|]; [|discriminate]. inversion E; subst. cbn [at_from]. rewrite Nat.add_0_r. now left.
  - cbn [at_from]. apply in_or_app. right. rewrite <- Nat.add_succ_comm. eapply IH. exact E.
Qed.
(** Giving up [G] releases at most what the cells of [G] weigh. *)
Lemma released : forall w h h' (G F : list own) n, WF kids h (G ++ F) -> WF kids h' F -> gcovers w G n -> weigh w h <= n + weigh w h'.
Proof.
  intros w h h' G F n (_ & Fh & X) (_ & Fh' & _) (N & HI & Ln). unfold weigh. rewrite <- (at_from_live h 0), <- (at_from_live h' 0), !map_map.
  assert (L : list_sum (map (fun x => w (snd x)) (at_from 0 h)) <= list_sum (map (fun x => w (snd x)) (N ++ at_from 0 h'))).
  { apply sum_incl; [apply at_from_nodup|]. intros (a, c) I. destruct (at_from_in _ _ _ _ I) as (_ & k & Ea). rewrite Nat.sub_0_r in Ea.
    destruct (X a) as (o & Io & Ia); [congruence|]. rewrite Forall_forall in Fh, Fh'. pose proof (Fh o Io) as Wo. destruct o as [t|b]; cbn [own_wf own_as] in *.
    - destruct (pnodes_phys kids h t Wo a Ia) as (m & d & E' & I'). assert (d = c) as -> by congruence. apply in_or_app.
      apply in_app_or in Io as [Io|Io]; [left; apply HI; unfold gnodes; apply in_flat_map; exists (Tree t); split; assumption|].
      right. destruct (pnodes_get h' t (Fh' _ Io) a c I') as (n' & E2). exact (at_from_get h' 0 a n' c E2).
    - destruct Ia as [->|[]]. congruence. }
  rewrite map_app, list_sum_app in L. lia.
Qed.
Lemma weigh_add : forall (w w1 w2 : C -> nat) h, (forall c, w c = w1 c + w2 c) -> weigh w h = weigh w1 h + weigh w2 h.
Proof.
  intros w w1 w2 h H. unfold weigh. induction (live h) as [|c l IH]; [reflexivity|].
  change (w c + list_sum (map w l) = (w1 c + list_sum (map w1 l)) + (w2 c + list_sum (map w2 l))). rewrite IH, H. lia.
Qed.
End Released.

(** A value of a version that is alone is in a cell of the heap; values that are different are in different
    cells. *)
Lemma low_holds : forall C X (kids : C -> list addr) (mk : X -> C) (booms : C -> nat) (we : X -> nat) (s : list X) G h,
  (forall x y, mk x = mk y -> x = y) -> (forall x, booms (mk x) = we x) -> holds mk s G -> WF kids h G ->
  (1 <= list_sum (map we s) -> 1 <= weigh booms h) /\ (NoDup s -> list_sum (map we s) <= weigh booms h).
Proof.
  intros C X kids mk booms we s G h Inj E H Wf. destruct (holds_weigh kids mk booms we s G h Inj E H Wf) as (A & B). split; [|exact A].
  intros L. assert (Z : exists x, In x s /\ 1 <= we x).
  { clear - L. induction s as [|x s IH]; cbn [map] in L; [cbn in L; lia|]. rewrite sum_cons in L. destruct (we x) eqn:Ex.
    - destruct (IH L) as (y & Iy & Ly). exists y. split; [now right|exact Ly].
    - exists x. split; [now left|lia]. }
  destruct Z as (x & Ix & Lx). specialize (B x Ix). lia.
Qed.

Lemma nth_error_upd_eq : forall X (l : list X) i x, i < length l -> nth_error (upd l i x) i = Some x.
Proof. intros X l. induction l as [|y l IH]; intros [|i] x L; cbn in *; try lia; [reflexivity|]. apply IH. lia. Qed.
Lemma nth_error_upd_ne : forall X (l : list X) i j x, j <> i -> nth_error (upd l i x) j = nth_error l j.
Proof. intros X l. induction l as [|y l IH]; intros [|i] [|j] x N; cbn; try reflexivity; [lia|]. apply IH. lia. Qed.
Lemma reps_none_owned : forall C Coll Val (rep : Coll -> Val -> list (@own C) -> Prop) cs vs G,
  reps rep cs vs G -> (forall j v, nth_error vs j <> Some (Some v)) -> G = [].
Proof.
  intros C Coll Val rep cs vs G R. induction R as [|c v G cs vs Gs r R IH|cs vs Gs R IH]; intros N; [reflexivity|now destruct (N 0 v)|].
  apply IH. intros j v. exact (N (S j) v).
Qed.

(** ** The property *)
Section Contained.
Context {C : Type} (kids : C -> list addr).
Context {Coll Val Op Out : Type} (hnew : prog C Coll) (hclone : Coll -> prog C Coll) (hdrop : Coll -> prog C unit)
        (hthrow : Coll -> bool -> prog C outcome) (hop : Op -> Coll -> prog C (Coll * Out)).
Notation own := (@own C).
Context (rep : Coll -> Val -> list own -> Prop) (vnew : Val) (vop : Op -> Val -> Val * Out)
        (pre : Op -> Val -> Prop) (ncost : nat) (cost : Op -> Val -> nat).
Context (booms : C -> nat) (W : Val -> nat) (distinct : Val -> Prop) (glue : bool).

(** After any program, a version is dropped, [k] panicking values with it: no more than the version
    contains, and if it is the only version left, one at least if it contains one and all of them if its
    values are different.  The heap is then the one that a drop without panics leaves, unless the process aborts; and it
    does so when [k] is two or more.  Calls of drop glue nest as without panics ([depth_run], HeapDepth.v)
    when none of these values panics, and, where [glue] is [true], also when one does.
    And any program that catches the panics of its drops ends with the heap, the versions and the
    results it has without panics, and the drops that panic are those that release one such value;
    unless one releases more, and then it aborts. *)
Definition drops_contained : Prop := forall main, within vnew vop pre main [] ->
  let (vs, xs) := sclient vnew vop main [] in
  exists h rs,
    run [] (hclient hnew hclone hdrop hop main []) = Some (h, (rs, xs)) /\
    (forall i v, nth_error vs i = Some (Some v) ->
       exists c h' k, nth_error rs i = Some (Some c) /\ run h (hdrop c) = Some (h', tt) /\
         weigh booms h = k + weigh booms h' /\ k <= W v /\
         ((forall j v', nth_error vs j = Some (Some v') -> j = i) -> (1 <= W v -> 1 <= k) /\ (distinct v -> k = W v)) /\
         (k = 0 -> run h (hthrow c false) = Some (h', Went false)) /\
         (k = 1 -> run h (hthrow c false) = Some (h', Went true)) /\
         (2 <= k -> exists h2, run h (hthrow c false) = Some (h2, Aborted)) /\
         (k = 0 \/ (glue = true /\ k = 1) -> exists cur mx,
            depth_run 0 0 h (hdrop c) = Some (h', tt, cur, mx) /\ depth_run 0 0 h (hthrow c false) = Some (h', Went (Nat.eqb k 1), cur, mx))) /\
    let ks := releases hnew hclone hdrop hop booms main [] [] in
    (Forall (fun k => k <= 1) ks ->
       run [] (tclient hnew hclone hthrow hop main []) = Some (h, Some (rs, xs, map (Nat.eqb 1) ks))) /\
    (Exists (fun k => 2 <= k) ks ->
       exists h2, run [] (tclient hnew hclone hthrow hop main []) = Some (h2, None)).

Hypothesis new_ok : safe kids ncost hnew [] (fun c G => rep c vnew G).
Hypothesis clone_ok : forall c v G, rep c v G ->
  safe kids 0 (hclone c) G (fun c' G' => exists G1 G2, G' = G1 ++ G2 /\ rep c v G1 /\ rep c' v G2).
Hypothesis drop_ok : forall c v G, rep c v G -> safe kids 0 (hdrop c) G (fun _ G' => G' = []).
Hypothesis op_ok : forall o c v G, rep c v G -> pre o v ->
  safe kids (cost o v) (hop o c) G
    (fun r G' => snd r = snd (vop o v) /\ rep (fst r) (fst (vop o v)) G').
Hypothesis Hd : forall c, as_drop booms (hdrop c) (hthrow c).
Hypothesis Hn : forall c, as_deep booms glue (hdrop c) (hthrow c).
Context (w1 w2 : C -> nat) (W1 W2 : Val -> nat).
Hypothesis Hw : forall c, booms c = w1 c + w2 c.
Hypothesis HW : forall v, W v = W1 v + W2 v.
Hypothesis weigh1 : forall c v G, rep c v G -> gcovers w1 G (W1 v).
Hypothesis weigh2 : forall c v G, rep c v G -> gcovers w2 G (W2 v).

Hypothesis low : forall c v G h, rep c v G -> WF kids h G -> (1 <= W v -> 1 <= weigh booms h) /\ (distinct v -> W v <= weigh booms h).

Theorem drops_contained_ok : drops_contained.
Proof.
  intros main Wm.
  destruct (client_runs kids hnew hclone hdrop hop rep vnew vop pre ncost cost new_ok clone_ok drop_ok op_ok
              main [] [] [] [] []) as (h & rs & G & E & R & Wf & _); [constructor|exact Wm|apply WF_nil|].
  rewrite app_nil_r in Wf. destruct (sclient vnew vop main []) as [vs xs]. cbn [fst snd] in *. exists h, rs. split; [exact E|]. split.
  - intros i v Ev. assert (Nv := reps_nth rep _ _ _ i R). rewrite Ev in Nv. destruct Nv as (c & G1 & G2 & Ec & r & Pm & _ & (G3 & P3 & R3)).
    assert (Wf' : WF kids h (G1 ++ G2)) by (eapply WF_perm; eassumption).
    destruct (run_sound kids _ _ _ _ _ _ (drop_ok c v G1 r) Wf') as (h' & [] & G' & Ed & -> & Wd & _). cbn [app] in Wd.
    destruct (Hd c _ _ Ed) as (k & Wk & B). specialize (B false). exists c, h', k. split; [exact Ec|]. split; [exact Ed|]. split; [exact Wk|].
    assert (Lk : k <= W v).
    { pose proof (released kids w1 h h' G1 G2 _ Wf' Wd (weigh1 _ _ _ r)). pose proof (released kids w2 h h' G1 G2 _ Wf' Wd (weigh2 _ _ _ r)).
      rewrite !(weigh_add booms w1 w2 _ Hw) in Wk. rewrite HW. lia. }
    split; [exact Lk|]. split.
    + intros Only. assert (G3 = []) as ->.
      { refine (reps_none_owned _ _ _ _ _ _ _ R3 _). intros j v' Ej. destruct (Nat.eq_dec j i) as [->|Nj].
        - rewrite nth_error_upd_eq in Ej by (apply nth_error_Some; congruence). discriminate.
        - rewrite nth_error_upd_ne in Ej by congruence. exact (Nj (Only _ _ Ej)). }
      apply Permutation_sym, Permutation_nil in P3. subst G2. rewrite app_nil_r in Wf'.
      assert (weigh booms h' = 0) by (pose proof (live_weigh kids booms h' [] 0 Wd ltac:(exists []; split; [intros x []|cbn; lia])); lia).
      destruct (low _ _ _ _ r Wf') as (A1 & A2). split; [intros H1; specialize (A1 H1); lia|]. intros H1. specialize (A2 H1). lia.
    + assert (Nest : k = 0 \/ (glue = true /\ k = 1) -> exists cur mx,
        depth_run 0 0 h (hdrop c) = Some (h', tt, cur, mx) /\ depth_run 0 0 h (hthrow c false) = Some (h', Went (Nat.eqb k 1), cur, mx)).
      { intros K. pose proof (depth_run_run _ (hdrop c) 0 0 h) as Dr. rewrite Ed in Dr. destruct Dr as (cur & mx & Dr). exists cur, mx. split; [exact Dr|].
        refine (Hn c _ _ _ _ _ _ k false _ Dr Wk ltac:(tauto) _). destruct K as [->|(_ & ->)]; reflexivity. }
      destruct k as [|[|k]]; cbn [hit] in B; (repeat split; try exact Nest; intros; try lia; exact B).
  - exact (tclient_as hnew hclone hdrop hthrow hop booms Hd main [] [] h rs xs E).
Qed.
End Contained.
Lemma covers_none : forall C (G : list (@own C)), gcovers (fun _ => 0) G 0.
Proof. intros C G. exists (gnodes G). split; [apply incl_refl|]. induction (gnodes G); [apply le_n|]. assumption. Qed.
