(** * What the derived [Debug] writes, and how deep its calls nest *)
From Coq Require Import String List NArith Arith Bool Lia Permutation Sorted.
From Verif Require Import Base Spec SpecMap SpecSerde ListModel ListProofs VectorModel VectorProofs VectorOps SparseModel SparseProofs
  HashModel HashProofs HashHist HashExtra HashExtraProofs RBModel RBProofs RBIter RBExtra TraitModel TraitProofs DebugModel.
Import ListNotations.
Local Open Scope list_scope.

(** The parts of the user's that are written, in order; and the integers. *)
Definition users {X} (ps : list (piece X)) : list X := flat_map (fun p => match p with User x => [x] | _ => [] end) ps.
Definition numbers {X} (ps : list (piece X)) : list N := flat_map (fun p => match p with Num n => [n] | _ => [] end) ps.

Section Parts.
Context {X Y : Type}.
Variable f : piece X -> list Y.
Hypothesis Hf : forall s, f (Str s) = [].
Definition part (d : dcall X) : list Y := flat_map f (written d).

Lemma part_fields : forall fs first,
  flat_map f ((fix go (first : bool) l := match l with
     | [] => if first : bool then [] else [Str " }"%string]
     | (n, d) :: l' => Str (if first then " { " else ", ")%string :: Str n :: Str ": "%string :: written d ++ go false l'
     end) first fs) = flat_map (fun x => part (snd x)) fs.
Proof using Hf.
  induction fs as [|[n d] fs IH]; intros first; cbn [flat_map].
  - destruct first; cbn [flat_map]; rewrite ?Hf; reflexivity.
  - rewrite !Hf. cbn [app snd]. rewrite flat_map_app, IH. reflexivity.
Qed.
Lemma part_struct : forall name fs, part (DStruct name fs) = flat_map (fun x => part (snd x)) fs.
Proof using Hf. intros. unfold part at 1. cbn [written flat_map]. rewrite Hf. cbn [app]. apply part_fields. Qed.

Lemma part_args : forall fs first,
  flat_map f ((fix go (first : bool) l := match l with
     | [] => if first : bool then [] else [Str ")"%string]
     | d :: l' => Str (if first then "(" else ", ")%string :: written d ++ go false l'
     end) first fs) = flat_map part fs.
Proof using Hf.
  induction fs as [|d fs IH]; intros first; cbn [flat_map].
  - destruct first; cbn [flat_map]; rewrite ?Hf; reflexivity.
  - rewrite !Hf. cbn [app snd]. rewrite flat_map_app, IH. reflexivity.
Qed.
Lemma part_tuple : forall name fs, part (DTuple name fs) = flat_map part fs.
Proof using Hf. intros. unfold part at 1. cbn [written flat_map]. rewrite Hf. cbn [app]. apply part_args. Qed.

Lemma part_items : forall fs first,
  flat_map f ((fix go (first : bool) l := match l with
     | [] => [Str "]"%string]
     | d :: l' => (if first : bool then [] else [Str ", "%string]) ++ written d ++ go false l'
     end) first fs) = flat_map part fs.
Proof using Hf.
  induction fs as [|d fs IH]; intros first; cbn [flat_map].
  - rewrite Hf. reflexivity.
  - rewrite !flat_map_app, IH. destruct first; cbn [flat_map app]; rewrite ?Hf; reflexivity.
Qed.
Lemma part_seq : forall fs, part (DSeq fs) = flat_map part fs.
Proof using Hf. intros. unfold part at 1. cbn [written flat_map]. rewrite Hf. cbn [app]. apply part_items. Qed.
Lemma part_text : forall s, part (d_unit s) = [].
Proof using Hf. intros. unfold part. cbn. now rewrite Hf. Qed.
Lemma part_num : forall n, part (d_num n) = f (Num n).
Proof. intros. unfold part. cbn. apply app_nil_r. Qed.
Lemma part_some : forall d, part (d_some d) = part d.
Proof using Hf. intros. unfold d_some. rewrite part_tuple. cbn. apply app_nil_r. Qed.

(** The element, or what is in front of it. *)
Definition opt {A B} (g : A -> list B) (o : option A) : list B := match o with Some a => g a | None => [] end.

Section Seq.
Context {T : Type}.
Variable t : T -> dcall X.

Lemma part_chain : forall s, part (debug_chain t s) = flat_map (fun x => part (t x)) s.
Proof using Hf.
  induction s as [|v s IH]; cbn [debug_chain flat_map].
  - apply part_text.
  - rewrite part_some, part_struct. cbn [flat_map snd]. now rewrite IH, app_nil_r.
Qed.
Lemma part_list : forall l s, l_rep l s ->
  part (debug_list t l) = flat_map (fun x => part (t x)) s ++ opt (fun x => part (t x)) (last_error s) ++ f (Num (N.of_nat (length s))).
Proof using Hf.
  intros l s (E1 & E2 & E3). unfold debug_list. rewrite part_struct. cbn [flat_map snd]. rewrite E1, E2, E3, part_chain, part_num, app_nil_r.
  destruct (last_error s); cbn [opt]; [now rewrite part_some|unfold d_none; now rewrite part_text].
Qed.

Lemma part_crep : forall R C ns l, crep R C ns l -> (forall n l, R n l -> part (debug_vnode t n) = flat_map (fun x => part (t x)) l) ->
  flat_map part (map (debug_vnode t) ns) = flat_map (fun x => part (t x)) l.
Proof using.
  intros R C ns l H HR. induction H as [n l Hn _|n l ns ls Hn _ _ IH]; cbn [map flat_map].
  - rewrite (HR _ _ Hn). apply app_nil_r.
  - rewrite (HR _ _ Hn), IH. symmetry. apply flat_map_app.
Qed.
Lemma part_vnode : forall bits h n l, rep bits h n l -> part (debug_vnode t n) = flat_map (fun x => part (t x)) l.
Proof using Hf.
  intros bits. induction h as [|h IH]; intros n l H; cbn [rep] in H.
  - destruct H as (-> & _). cbn [debug_vnode]. rewrite part_tuple. cbn [flat_map]. rewrite part_seq, app_nil_r.
    now rewrite !flat_map_concat_map, map_map.
  - destruct H as (cs & -> & Hc & _). cbn [debug_vnode]. rewrite part_tuple. cbn [flat_map]. rewrite part_seq, app_nil_r.
    apply (part_crep _ _ _ _ Hc). intros. now apply IH.
Qed.
End Seq.

Section Map.
Context {K V : Type}.
Variable kd : K -> dcall X.
Variable vd : V -> dcall X.
Definition entry_part (e : K * V) : list Y := part (kd (fst e)) ++ part (vd (snd e)).

Lemma part_entry : forall e, part (debug_entry kd vd e) = entry_part e.
Proof using Hf. intros. unfold debug_entry. rewrite part_struct. cbn [flat_map snd]. now rewrite app_nil_r. Qed.

(** The order in which the nodes of a tree are written *)
Fixpoint preorder (t : tree K V) : list (K * V) :=
  match t with Leaf => [] | Tree e _ l r => e :: preorder l ++ preorder r end.
Lemma preorder_elems : forall t, Permutation (preorder t) (elems t).
Proof using.
  induction t as [|e c l IHl r IHr]; cbn [preorder elems]; [constructor|].
  rewrite IHl, IHr. apply Permutation_middle.
Qed.
Lemma part_tree : forall t, part (debug_tree kd vd t) = flat_map entry_part (preorder t).
Proof using Hf.
  induction t as [|e c l IHl r IHr]; cbn [debug_tree preorder flat_map].
  - apply part_text.
  - rewrite part_some, part_struct. cbn [flat_map snd]. unfold debug_color. rewrite part_entry, IHl, IHr, part_text, app_nil_r. cbn [app].
    now rewrite flat_map_app.
Qed.

(** Entries of a trie: those of a collision are listed, and the last of them once more. *)
Fixpoint listed (n : hnode K V) : list (hentry K V) :=
  match n with
  | HBranch s => concat (map listed (sa_array s))
  | HLeaf (BSingle e) => [e]
  | HLeaf (BCollision l) => l_head l ++ opt (fun e => [e]) (l_last l)
  end.
End Map.
End Parts.

Lemma hnode_ind2 : forall K V (P : hnode K V -> Prop),
  (forall s, Forall P (sa_array s) -> P (HBranch s)) -> (forall b, P (HLeaf b)) -> forall n, P n.
Proof.
  intros K V P Hb Hl. fix IH 1. intros [[bm a]|b]; [|apply Hl]. apply Hb. cbn [sa_array].
  induction a as [|n a IHa]; constructor; [apply IH|exact IHa].
Qed.

Section Users.
Context {X : Type}.
Definition shows : dcall X -> list X := part (fun p => match p with User x => [x] | _ => [] end).
Lemma u_str : forall s, (fun p : piece X => match p with User x => [x] | _ => [] end) (Str s) = [].
Proof. reflexivity. Qed.

Section Hash.
Context {K V : Type}.
Variable kd : K -> dcall X.
Variable vd : V -> dcall X.
Definition shown_entry (e : K * V) : list X := shows (kd (fst e)) ++ shows (vd (snd e)).
Definition shown_hentry (e : hentry K V) : list X := shown_entry (e_key e, e_val e).

Lemma shows_hentry : forall e, shows (debug_hentry kd vd e) = shown_hentry e.
Proof.
  intros e. unfold shows, debug_hentry. rewrite part_struct by apply u_str. cbn [flat_map snd]. rewrite part_entry by apply u_str.
  rewrite part_num. cbn [app]. rewrite app_nil_r. reflexivity.
Qed.
Lemma shows_hnode : forall n, shows (debug_hnode kd vd n) = flat_map shown_hentry (listed n).
Proof.
  induction n as [s IH|[e|l]] using hnode_ind2; cbn [debug_hnode debug_bucket listed]; unfold shows in *.
  - rewrite part_tuple by apply u_str. cbn [flat_map]. rewrite part_struct by apply u_str. cbn [flat_map snd].
    rewrite part_num, part_seq, !app_nil_r by apply u_str. cbn [app].
    induction IH as [|n a Hn _ IHa]; cbn [map flat_map concat]; [reflexivity|]. rewrite Hn, IHa. symmetry. apply flat_map_app.
  - rewrite !part_tuple by apply u_str. cbn [flat_map]. rewrite part_tuple by apply u_str. cbn [flat_map].
    change (part _ (debug_hentry kd vd e)) with (shows (debug_hentry kd vd e)). now rewrite shows_hentry, !app_nil_r.
  - rewrite !part_tuple by apply u_str. cbn [flat_map]. rewrite part_tuple by apply u_str. cbn [flat_map]. rewrite !app_nil_r.
    unfold debug_list. rewrite part_struct by apply u_str. cbn [flat_map snd]. rewrite part_chain by apply u_str. rewrite part_num. cbn [app]. rewrite app_nil_r.
    rewrite flat_map_app. f_equal.
    + apply flat_map_ext. intros e. apply shows_hentry.
    + destruct (l_last l) as [e|]; cbn [opt flat_map]; [|reflexivity]. rewrite part_some by apply u_str. rewrite app_nil_r. apply shows_hentry.
Qed.
End Hash.
End Users.

(** ** Collisions: what is listed twice *)
Section Listed.
Context {K V : Type}.
Notation node := (hnode K V).
Notation entry := (hentry K V).

Definition twice (l es : list entry) : Prop :=
  exists again rest, Permutation l (es ++ again) /\ Permutation es (again ++ rest) /\
    forall x, In x again -> exists y, In y rest /\ e_hash y = e_hash x.

Lemma twice_refl : forall es, twice es es.
Proof. intros es. exists [], es. rewrite app_nil_r. repeat split; auto. intros x []. Qed.

Lemma twice_app : forall l1 es1 l2 es2, twice l1 es1 -> twice l2 es2 -> twice (l1 ++ l2) (es1 ++ es2).
Proof.
  intros l1 es1 l2 es2 (a1 & r1 & P1 & Q1 & H1) (a2 & r2 & P2 & Q2 & H2). exists (a1 ++ a2), (r1 ++ r2). split; [|split].
  - rewrite P1, P2. rewrite <- !app_assoc. apply Permutation_app_head. rewrite !app_assoc. apply Permutation_app_tail. apply Permutation_app_comm.
  - rewrite Q1, Q2. rewrite <- !app_assoc. apply Permutation_app_head. rewrite !app_assoc. apply Permutation_app_tail. apply Permutation_app_comm.
  - intros x Hx. apply in_app_or in Hx. destruct Hx as [Hx|Hx]; [destruct (H1 x Hx) as (y & Hy & E)|destruct (H2 x Hx) as (y & Hy & E)];
      exists y; (split; [apply in_or_app; auto|exact E]).
Qed.

Lemma last_snoc : forall A (l : list A) x, last_error (l ++ [x]) = Some x.
Proof. intros A l x. induction l as [|y l IH]; [reflexivity|]. cbn [app last_error]. rewrite IH. now destruct (l ++ [x]) eqn:E; [destruct l|]. Qed.
Lemma last_split : forall A (l : list A), l <> [] -> exists i x, l = i ++ [x] /\ last_error l = Some x.
Proof.
  intros A l H. destruct (exists_last H) as (i & x & ->). exists i, x. split; [reflexivity|]. apply last_snoc.
Qed.

Lemma hrep_listed : forall ubits b st r d root (n : node) es, @hrepg ubits b K V st r d n es -> doc_inv b root d n -> twice (listed n) es.
Proof.
  intros ubits b st. induction r as [|r IH]; intros d root n es H D; destruct n as [s|[e|l]]; cbn [hrepg] in H; cbn [listed].
  - destruct H.
  - subst es. apply twice_refl.
  - destruct H as (_ & (E1 & E2 & _) & L). inversion D as [|? ? ? _ _ Hs|]; subst. rewrite E2.
    destruct (last_split _ (l_head l)) as (i & x & Ei & El); [intros E0; rewrite E0 in L; cbn in L; lia|]. rewrite El. cbn [opt].
    exists [x], i. split; [reflexivity|]. split; [rewrite Ei; apply Permutation_app_comm|].
    intros y [<-|[]]. destruct i as [|z i]; [rewrite Ei in L; cbn in L; lia|]. exists z. split; [now left|].
    apply Hs; rewrite Ei; [now left|apply in_or_app; right; now left].
  - destruct H as (al & (_ & Ea & _) & Hc). inversion D as [| |? ? ? _ _ Hs]; subst. rewrite Ea in *. clear Ea D.
    induction Hc as [|i c ec al rest Hr _ _ _ _ IHc]; cbn [map concat snd] in *; [apply twice_refl|].
    apply twice_app; [apply (IH _ _ _ _ Hr (Hs c (or_introl eq_refl)))|apply IHc; intros c' Hc'; apply Hs; now right].
  - subst es. apply twice_refl.
  - destruct H as (H & _). discriminate.
Qed.
End Listed.

(** ** Nesting *)
Lemma list_max_map_le : forall A (g : A -> nat) l k, (forall x, In x l -> g x <= k) -> list_max (map g l) <= k.
Proof. intros A g l k H. apply list_max_le. rewrite Forall_map, Forall_forall. exact H. Qed.
Lemma filter_all : forall A (p : A -> bool) l, (forall a, In a l -> p a = true) -> filter p l = l.
Proof.
  intros A p l. induction l as [|a l IH]; intros H; [reflexivity|]. cbn [filter]. rewrite (H a (or_introl eq_refl)).
  f_equal. apply IH. intros x Hx. apply H. now right.
Qed.
Lemma list_max_ge : forall l k, In k l -> k <= list_max l.
Proof. intros l k H. assert (F : Forall (fun x => x <= list_max l) l) by now apply list_max_le. rewrite Forall_forall in F. auto. Qed.

Section Nest.
Context {X T : Type}.
Variable t : T -> dcall X.
Variable e : nat.
Hypothesis He : forall x, nesting (t x) = S e.

Lemma nest_chain : forall s, nesting (debug_chain t s) = match s with [] => 1 | _ => 2 * length s + S e end.
Proof using He.
  induction s as [|v s IH]; [reflexivity|]. cbn [debug_chain]. unfold d_some. cbn [nesting map snd list_max fold_right].
  rewrite He, IH. destruct s as [|w s]; cbn [length]; lia.
Qed.
Lemma nest_list : forall l s, l_rep l s -> nesting (debug_list t l) = match s with [] => 2 | _ => 2 * length s + S (S e) end.
Proof using He.
  intros l s (E1 & E2 & E3). unfold debug_list. cbn [nesting map snd list_max fold_right]. rewrite E1, E2, nest_chain. unfold d_num. cbn [nesting].
  destruct s as [|v s]; [reflexivity|]. destruct (last_error (v :: s)); unfold d_some, d_none, d_unit; cbn [nesting map list_max fold_right]; rewrite ?He; cbn [length]; lia.
Qed.

Lemma nest_vnode : forall bits h n l, rep bits h n l -> nesting (debug_vnode t n) <= 2 * h + 3 + e.
Proof using He.
  intros bits. induction h as [|h IH]; intros n l H; cbn [rep] in H.
  - destruct H as (-> & _). cbn [debug_vnode nesting map list_max fold_right].
    assert (list_max (map nesting (map t l)) <= S e); [|lia]. rewrite map_map. apply list_max_map_le. intros x _. now rewrite He.
  - destruct H as (cs & -> & Hc & _). cbn [debug_vnode nesting map list_max fold_right].
    assert (list_max (map nesting (map (debug_vnode t) cs)) <= 2 * h + 3 + e); [|lia]. rewrite map_map. apply list_max_map_le.
    induction Hc as [n l Hn _|n l ns ls Hn _ _ IHc]; intros x [<-|Hx]; [exact (IH _ _ Hn)|destruct Hx|exact (IH _ _ Hn)|now apply IHc].
Qed.
End Nest.

Section NestMap.
Context {X K V : Type}.
Variable kd : K -> dcall X.
Variable vd : V -> dcall X.
Hypothesis Hk : forall x, nesting (kd x) = 1.
Hypothesis Hv : forall x, nesting (vd x) = 1.

Lemma nest_entry : forall e, nesting (debug_entry kd vd e) = 2.
Proof using Hk Hv. intros. cbn [debug_entry nesting map snd list_max fold_right]. now rewrite Hk, Hv. Qed.
Lemma nest_tree : forall tr : tree K V, nesting (debug_tree kd vd tr) <= 2 * hgt tr + 2.
Proof using Hk Hv.
  induction tr as [|e c l IHl r IHr]; [cbn; lia|]. cbn [debug_tree hgt]. unfold d_some. cbn [nesting map snd list_max fold_right].
  rewrite nest_entry. unfold debug_color, d_unit. cbn [nesting]. lia.
Qed.
(** and at least along the highest path *)
Lemma nest_tree_ge : forall tr : tree K V, 2 * hgt tr + 1 <= nesting (debug_tree kd vd tr).
Proof using Hk Hv.
  induction tr as [|e c l IHl r IHr]; [cbn; lia|]. cbn [debug_tree hgt]. unfold d_some. cbn [nesting map snd list_max fold_right]. lia.
Qed.

Lemma nest_hentry : forall e, nesting (debug_hentry kd vd e) = 3.
Proof using Hk Hv. intros. unfold debug_hentry. cbn [nesting map snd list_max fold_right]. now rewrite nest_entry. Qed.

Definition same_hash (h : N) (es : list (hentry K V)) : nat := length (filter (fun e => N.eqb (e_hash e) h) es).
Lemma same_hash_app : forall h a b, same_hash h (a ++ b) = same_hash h a + same_hash h b.
Proof using. intros. unfold same_hash. now rewrite filter_app, app_length. Qed.

Lemma nest_hnode : forall ubits b st c r d root n es, @hrepg ubits b K V st r d n es -> doc_inv b root d n ->
  (forall h, same_hash h es <= c) -> nesting (debug_hnode kd vd n) <= 3 * r + 2 * c + 6.
Proof using Hk Hv.
  intros ubits b st c. induction r as [|r IH]; intros d root n es H D Hc; destruct n as [s|[e|l]]; cbn [hrepg] in H; cbn [debug_hnode debug_bucket].
  - destruct H.
  - cbn [nesting map list_max fold_right]. rewrite nest_hentry. lia.
  - destruct H as (_ & Hr & L). inversion D as [|? ? ? _ _ Hs|]; subst. cbn [nesting map list_max fold_right].
    rewrite (nest_list (debug_hentry kd vd) 2 nest_hentry l es Hr).
    assert (length es <= c).
    { destruct es as [|x es]; [cbn; lia|]. rewrite <- (Hc (e_hash x)). unfold same_hash. destruct Hr as (E1 & _). rewrite E1 in Hs.
      rewrite filter_all; [lia|]. intros y Hy. apply N.eqb_eq. apply Hs; [exact Hy|now left]. }
    destruct es as [|x es]; [cbn in L; lia|]. lia.
  - destruct H as (al & (_ & Ea & _) & Hch). inversion D as [| |? ? ? _ _ Hs]; subst. cbn [nesting map snd list_max fold_right].
    unfold d_num. cbn [nesting]. assert (list_max (map nesting (map (debug_hnode kd vd) (sa_array s))) <= 3 * r + 2 * c + 6); [|lia].
    rewrite map_map. apply list_max_map_le. rewrite Ea in *. clear Ea D.
    induction Hch as [|i n ec al rest Hr _ _ _ _ IHc]; cbn [map snd] in *; intros x Hx; [destruct Hx|].
    destruct Hx as [<-|Hx].
    + apply (IH _ false _ _ Hr); [apply Hs; now left|]. intros h. specialize (Hc h). rewrite same_hash_app in Hc. lia.
    + apply IHc; [|intros n' Hn'; apply Hs; now right|exact Hx]. intros h. specialize (Hc h). rewrite same_hash_app in Hc. lia.
  - cbn [nesting map list_max fold_right]. rewrite nest_hentry. lia.
  - destruct H as (H & _). discriminate.
Qed.

Lemma nest_hnode_ge : forall ubits b st h r d n es, @hrepg ubits b K V st r d n es ->
  (forall e, In e es -> e_hash e = h) -> 2 <= length es -> 2 * length es <= nesting (debug_hnode kd vd n).
Proof using Hk Hv.
  intros ubits b st h. induction r as [|r IH]; intros d n es H Hs L; destruct n as [s|[e|l]]; cbn [hrepg] in H; cbn [debug_hnode debug_bucket].
  - destruct H.
  - subst es. cbn in L. lia.
  - destruct H as (_ & Hr & _). cbn [nesting map list_max fold_right]. rewrite (nest_list (debug_hentry kd vd) 2 nest_hentry l es Hr).
    destruct es as [|x es]; [cbn in L; lia|]. lia.
  - destruct H as (al & (_ & Ea & So & _) & Hch). cbn [nesting map snd list_max fold_right]. rewrite Ea. clear Ea.
    inversion Hch as [|i n ec al' rest Hr Hne Hd _ Hrest]; subst; [cbn in L; lia|]. cbn [map snd] in *.
    inversion Hrest as [|j n2 ec2 al2 rest2 Hr2 Hne2 Hd2 _ _]; subst.
    + rewrite app_nil_r in *. specialize (IH _ _ _ Hr Hs L). cbn [map list_max fold_right]. lia.
    + exfalso. destruct ec as [|x ec]; [now apply Hne|]. destruct ec2 as [|y ec2]; [now apply Hne2|].
      specialize (Hd x (or_introl eq_refl)). specialize (Hd2 y (or_introl eq_refl)).
      rewrite (Hs x) in Hd by now left. rewrite (Hs y) in Hd2 by (apply in_or_app; right; now left).
      cbn [map fst] in So. apply StronglySorted_inv in So as [_ So]. apply Forall_inv in So. lia.
  - subst es. cbn in L. lia.
  - destruct H as (H & _). discriminate.
Qed.
End NestMap.

(** ** The trie of a vector is determined by its contents *)
Section Canonical.
Context {T : Type}.
Variable bits : N.

Lemma crep_some : forall (R : vnode T -> list T -> Prop) C ns l, (0 < C)%N -> crep R C ns l -> (0 < len l)%N.
Proof. intros R C ns l HC H. destruct H; [lia|]. rewrite len_app. lia. Qed.
Lemma crep_unique : forall (R : vnode T -> list T -> Prop) C, (forall n n' l, R n l -> R n' l -> n = n') -> (0 < C)%N ->
  forall ns l, crep R C ns l -> forall ns' l', crep R C ns' l' -> l = l' -> ns = ns'.
Proof.
  intros R C HR HC ns l H. induction H as [n l Hn L|n l ns ls Hn L Hrest IH]; intros ns' l' H' E.
  - destruct H' as [n' l' Hn' _|n' l' ns' ls' Hn' L' Hr'].
    + subst l'. f_equal. now apply (HR _ _ l).
    + exfalso. pose proof (crep_some R C _ _ HC Hr') as Hp. subst l. rewrite len_app in L. lia.
  - destruct H' as [n' l' Hn' L'|n' l' ns' ls' Hn' L' Hr'].
    + exfalso. pose proof (crep_some R C _ _ HC Hrest) as Hp. subst l'. rewrite len_app in L'. lia.
    + assert (El : length l = length l') by (unfold len in *; lia).
      assert (E1 : l = l' /\ ls = ls').
      { clear - E El. revert l' El E. induction l as [|x l IHl]; intros [|y l'] El E; try discriminate; [auto|].
        injection E as -> E. injection El as El. destruct (IHl l' El E). subst. auto. }
      destruct E1 as [-> ->]. f_equal; [now apply (HR _ _ l')|now apply (IH _ ls')].
Qed.
Lemma rep_unique : forall h n n' (l : list T), rep bits h n l -> rep bits h n' l -> n = n'.
Proof.
  induction h as [|h IH]; intros n n' l H H'; cbn [rep] in *.
  - destruct H as (-> & _), H' as (-> & _). reflexivity.
  - destruct H as (cs & -> & Hc & _), H' as (cs' & -> & Hc' & _). f_equal.
    apply (crep_unique _ _ IH (pow2_pos _) _ _ Hc _ _ Hc' eq_refl).
Qed.
End Canonical.

(** ** Into a sink that may fail *)
Section Into.
Context {X : Type}.
Lemma dcall_ind2 : forall (P : dcall X -> Prop),
  (forall p, P (DOne p)) -> (forall n fs, Forall (fun f => P (snd f)) fs -> P (DStruct n fs)) ->
  (forall n ds, Forall P ds -> P (DTuple n ds)) -> (forall ds, Forall P ds -> P (DSeq ds)) -> forall d, P d.
Proof.
  intros P H1 H2 H3 H4. fix IH 1. intros [p|n fs|n ds|ds]; [apply H1|apply H2|apply H3|apply H4].
  - induction fs as [|[m d] fs IHfs]; constructor; [apply IH|exact IHfs].
  - induction ds as [|d ds IHds]; constructor; [apply IH|exact IHds].
  - induction ds as [|d ds IHds]; constructor; [apply IH|exact IHds].
Qed.

Context {W : Type}.
Variable emit : piece X -> action W.
Notation all ps := (until_error (map emit ps)).
Lemma into_app : forall (a b : action W) p q, (forall w, a w = all p w) -> (forall w, b w = all q w) -> forall w, and_then a b w = all (p ++ q) w.
Proof.
  intros a b p q Ha Hb w. rewrite map_app, until_error_app. unfold and_then. rewrite Ha. destruct (until_error (map emit p) w) as [[w' [|]]| |]; cbn [bind]; auto.
Qed.
Lemma into_cons : forall (b : action W) p q, (forall w, b w = all q w) -> forall w, and_then (emit p) b w = all (p :: q) w.
Proof. intros b p q Hb w. apply (into_app _ b [p] q); [|exact Hb]. intros w'. cbn [map]. now rewrite until_error_one. Qed.
Lemma into_one : forall p w, emit p w = all [p] w.
Proof. intros. cbn [map]. now rewrite until_error_one. Qed.

Ltac any_first :=
  match goal with |- forall w, ?f true ?l w = until_error (map ?e (?g true ?l)) w =>
    let H := fresh in assert (H : forall first w, f first l w = until_error (map e (g first l)) w); [|exact (H true)] end.
Lemma fmt_into_ok : forall d w, fmt_into emit d w = all (written d) w.
Proof.
  induction d as [p|n fs IH|n ds IH|ds IH] using dcall_ind2; cbn [fmt_into written].
  - apply into_one.
  - apply into_cons. any_first. induction IH as [|[m d] fs Hd _ IHfs]; intros first w.
    + destruct first; [reflexivity|apply into_one].
    + apply into_cons. apply into_cons. apply into_cons. apply into_app; [exact Hd|apply IHfs].
  - apply into_cons. any_first. induction IH as [|d ds Hd _ IHds]; intros first w.
    + destruct first; [reflexivity|apply into_one].
    + apply into_cons. apply into_app; [exact Hd|apply IHds].
  - apply into_cons. any_first. induction IH as [|d ds Hd _ IHds]; intros first w.
    + apply into_one.
    + apply into_app; [|apply into_app; [exact Hd|apply IHds]]. destruct first; [reflexivity|apply into_one].
Qed.
End Into.
