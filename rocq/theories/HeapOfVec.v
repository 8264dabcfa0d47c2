(** * Vectors of collections on the shared heap

    [Vector<X>] where [X] is itself a collection of this crate: HeapVec.v hosting an inner
    collection (HeapHost.v). *)
From Coq Require Import List NArith ZArith Arith Lia Bool.
From Verif Require Import Base Spec VectorModel VectorProofs HeapModel HeapVec HeapIn HeapHost.
Import ListNotations.
Local Open Scope prog_scope.

(** Calls.  [l]: calls made on an inner version. *)
Inductive nvop (Op : Type) :=
| NVPush (l : list Op)               (** [x = X::new(); x.l(); v = v.push_back(x)] *)
| NVPushMut (l : list Op)
| NVExtend (ls : list (list Op))     (** [v.extend(xs)] *)
| NVCopy (i : N) (l : list Op)       (** [x = v.get(i).cloned()]; when there is one [x.l(); v.push_back_mut(x)] *)
| NVSet (i : N) (l : list Op)        (** [v = v.set(i, x)] when that is [Some] *)
| NVSetMut (i : N) (l : list Op)
| NVUpdate (i : N) (l : list Op)     (** [x = v.get_mut(i)]; when there is one [x.l()] *)
| NVDrop
| NVDropMut
| NVGet (i : N) (l : list Op)        (** [x = v.get(i).cloned()]; when there is one [x.l(); drop(x)] *)
| NVFirst (l : list Op)
| NVLast (l : list Op)
| NVIter (ds : list bool) (l : list Op) (** the same for the references that the calls [ds] on [v.iter()] deliver *)
| NVLen
| NVIsEmpty.
Arguments NVPush {Op}.
Arguments NVPushMut {Op}.
Arguments NVExtend {Op}.
Arguments NVCopy {Op}.
Arguments NVSet {Op}.
Arguments NVSetMut {Op}.
Arguments NVUpdate {Op}.
Arguments NVDrop {Op}.
Arguments NVDropMut {Op}.
Arguments NVGet {Op}.
Arguments NVFirst {Op}.
Arguments NVLast {Op}.
Arguments NVIter {Op}.
Arguments NVLen {Op}.
Arguments NVIsEmpty {Op}.

(** The element in a cell (vector/mod.rs:105-109, [SharedPointer<T, P>]) *)
Definition v_elem {T} (c : vcell T) : option T := match c with VE x => Some x | _ => None end.
Definition v_put {T} (c : vcell T) (x : T) : vcell T := match c with VE _ => VE x | _ => c end.

Section Of.
Variable ubits : N.
Variable dbg : bool.
Context {C E Op Out : Type} (I : impl C E Op Out).
Notation B := (vcell E).
Notation D := (dcell B C).
Notation P := (prog D).
Notation calls := (calls I v_elem).
Notation makes := (makes (B := B) I).
Notation peek := (peek (B := B) I).
Notation node_mut := (node_mut I v_elem (make_mut vkids)).
Notation update := (update I v_elem vkids v_put).

(** vector/mod.rs:222-239, and calls through the reference returned *)
Fixpoint wvn_get_mut (f : nat) (bits : N) (l : list Op) (c : B) (index height : N) : P (B * list Out) :=
  match f with
  | 0 => Fail
  | S f' =>
      let* b := lift (bucket ubits dbg bits index height) in
      match c with
      | VB a =>
          let* h := lift (usub ubits dbg height 1) in
          let* p := lift (index_nth a b) in
          let* (p', d) := node_mut p in
          let* (d', xs) := wvn_get_mut f' bits l d index h in
          Fill p' (DO d') (Ret (VB (put a (N.to_nat b) p'), xs))
      | VL a =>
          let* _ := lift (debug_assert dbg (height =? 0)%N) in
          let* p := lift (index_nth a b) in
          let* (p', xs) := update l p in
          Ret (VL (put a (N.to_nat b) p'), xs)
      | VE _ => Fail
      end
  end.

(** vector/mod.rs:494-507 *)
Definition wv_get_mut (v : hvec) (index : N) (l : list Op) : P (hvec * option (list Out)) :=
  if (hv_length v <=? index)%N then Ret (v, None)
  else
    let* h := lift (hv_height (T := E) ubits dbg v) in
    let* (r, c) := node_mut (hv_root v) in
    let* (c', xs) := wvn_get_mut (lv h) (hv_bits v) l c index h in
    Fill r (DO c') (Ret (mkHV r (hv_bits v) (hv_length v), Some xs)).

(** A call of HeapVec.v with new elements *)
Definition wv_put (op : list E -> vec_op E) (v : hvec) (ls : list (list Op)) : P (hvec * obs E * list (list Out)) :=
  let* (es, xss) := makes ls in
  let* (v, o) := calls (hv_step ubits dbg (op es) v) es in
  Ret (v, o, xss).

(** One call that hands out a reference *)
Definition wv_peek (op : vec_op E) (v : hvec) (l : list Op) : P (hvec * nout Out) :=
  let* (v, o) := calls (hv_step ubits dbg op v) [] in
  match o with
  | OElem o => let* r := peek l o in Ret (v, NOuts r)
  | _ => Fail
  end.

Definition hd_op (f : E -> vec_op E) (es : list E) : vec_op E := match es with e :: _ => f e | [] => VLen end.

Definition wv_step (o : nvop Op) (v : hvec) : P (hvec * nout Out) :=
  match o with
  | NVPush l => let* (v, _, xss) := wv_put (hd_op VPush) v [l] in Ret (v, NAll xss)
  | NVPushMut l => let* (v, _, xss) := wv_put (hd_op VPushMut) v [l] in Ret (v, NAll xss)
  | NVExtend ls => let* (v, _, xss) := wv_put VExtend v ls in Ret (v, NAll xss)
  | NVCopy i l =>
      let* (v, o) := calls (hv_step ubits dbg (VGet i) v) [] in
      match o with
      | OElem None => Ret (v, NOuts None)
      | OElem (Some e) =>
          let* e := inj DI d_isI (i_clone I e) in
          let* (e, xs) := inj DI d_isI (irun I l e) in
          let* (v, _) := calls (hv_step ubits dbg (VPushMut e) v) [e] in
          Ret (v, NOuts (Some xs))
      | _ => Fail
      end
  | NVSet i l =>
      let* (v, o, xss) := wv_put (hd_op (VSet i)) v [l] in
      match o with OBool b => Ret (v, NMade b xss) | _ => Fail end
  | NVSetMut i l =>
      let* (v, o, xss) := wv_put (hd_op (VSetMut i)) v [l] in
      match o with OBool b => Ret (v, NMade b xss) | _ => Fail end
  | NVUpdate i l => let* (v, r) := wv_get_mut v i l in Ret (v, NOuts r)
  | NVDrop =>
      let* (v, o) := calls (hv_step ubits dbg VDrop v) [] in
      match o with OBool b => Ret (v, NBool b) | _ => Fail end
  | NVDropMut =>
      let* (v, o) := calls (hv_step ubits dbg VDropMut v) [] in
      match o with OBool b => Ret (v, NBool b) | _ => Fail end
  | NVGet i l => wv_peek (VGet i) v l
  | NVFirst l => wv_peek VFirst v l
  | NVLast l => wv_peek VLast v l
  | NVIter ds l =>
      let* (v, o) := calls (hv_step ubits dbg (VIter ds) v) [] in
      match o with
      | OSteps os => let* rs := peeks I l os in Ret (v, NSteps rs)
      | _ => Fail
      end
  | NVLen => Ret (v, NNat (N.to_nat (hv_length v)))
  | NVIsEmpty => Ret (v, NBool (hv_length v =? 0)%N)
  end.

(** As a collection again *)
Definition vector_of (bits : N) : impl D hvec (nvop Op) (nout Out) :=
  mkImpl (dkids I v_elem vkids) (fun v => [hv_root v]) (calls (hv_new bits) []) (fun v => calls (hv_clone v) [])
    (fun v => calls (hv_drop ubits dbg v) []) wv_step.

End Of.

(** ** The same as plain values: a vector is a list of values *)
Section Spec.
Context {V Op Out : Type} (S : spec V Op Out).
Variable ubits : N.
Variable dbg : bool.
Variable bits : N.

Definition made (l : list Op) : V := fst (vrun S l (s_new S)).
Definition shown_by (l : list Op) (v : V) : list Out := snd (vrun S l v).

Definition wv_val (o : nvop Op) (s : list V) : list V * nout Out :=
  let outs l := shown_by l (s_new S) in
  match o with
  | NVPush l | NVPushMut l => (s ++ [made l], NAll [outs l])
  | NVExtend ls => (s ++ map made ls, NAll (map outs ls))
  | NVCopy i l =>
      match at_N s i with
      | Some x => (s ++ [fst (vrun S l x)], NOuts (Some (shown_by l x)))
      | None => (s, NOuts None)
      end
  | NVSet i l | NVSetMut i l => (map_at_N (fun _ => made l) i s, NMade (in_range i s) [outs l])
  | NVUpdate i l => (map_at_N (fun x => fst (vrun S l x)) i s, NOuts (option_map (shown_by l) (at_N s i)))
  | NVDrop | NVDropMut => (removelast s, NBool (negb (is_nil s)))
  | NVGet i l => (s, NOuts (option_map (shown_by l) (at_N s i)))
  | NVFirst l => (s, NOuts (option_map (shown_by l) (hd_error s)))
  | NVLast l => (s, NOuts (option_map (shown_by l) (last_error s)))
  | NVIter ds l => (s, NSteps (map (fun r => (fst r, option_map (shown_by l) (snd r))) (de_spec ds s)))
  | NVLen => (s, NNat (length s))
  | NVIsEmpty => (s, NBool (is_nil s))
  end.

(** The calls on the inner versions may be made, and the vector is not too long. *)
Definition wv_pre (o : nvop Op) (s : list V) : Prop :=
  (len (fst (wv_val o s)) <= vec_limit ubits dbg bits)%N /\
  match o with
  | NVPush l | NVPushMut l | NVSet _ l | NVSetMut _ l => vmay S l (s_new S)
  | NVExtend ls => Forall (fun l => vmay S l (s_new S)) ls
  | NVCopy i l | NVUpdate i l | NVGet i l => opt_may S l (at_N s i)
  | NVFirst l => opt_may S l (hd_error s)
  | NVLast l => opt_may S l (last_error s)
  | NVIter _ l => Forall (vmay S l) s
  | _ => True
  end.

Definition vector_of_spec : spec (list V) (nvop Op) (nout Out) := mkSpec [] wv_val wv_pre.
End Spec.
