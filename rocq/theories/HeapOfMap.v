(** * Maps whose values are collections

    What the two maps have in common: [RedBlackTreeMap<K, X>] (HeapOfRB.v) and
    [HashTrieMap<K, X>] (HeapOfHash.v) where [X] is itself a collection of this crate. *)
From Coq Require Import List Arith Lia Bool.
From Verif Require Import Base Spec SpecMap HeapModel HeapIn HeapHost.
Import ListNotations.
Local Open Scope prog_scope.

(** Calls.  [l]: calls made on an inner version. *)
Inductive nmop (K Q Op : Type) :=
| NMInsert (k : K) (l : list Op)         (** [x = X::new(); x.l(); m = m.insert(k, x)] *)
| NMInsertMut (k : K) (l : list Op)
| NMCopy (q : Q) (k : K) (l : list Op)   (** [x = m.get(q).cloned()]; when there is one [x.l(); m.insert_mut(k, x)] *)
| NMUpdate (q : Q) (l : list Op)         (** [x = m.get_mut(q)]; when there is one [x.l()] *)
| NMRemove (q : Q)
| NMRemoveMut (q : Q)
| NMGet (q : Q) (l : list Op)            (** [x = m.get(q).cloned()]; when there is one [x.l(); drop(x)] *)
| NMGetKeyValue (q : Q) (l : list Op)
| NMContains (q : Q)
| NMSize
| NMIsEmpty.
Arguments NMInsert {K Q Op}.
Arguments NMInsertMut {K Q Op}.
Arguments NMCopy {K Q Op}.
Arguments NMUpdate {K Q Op}.
Arguments NMRemove {K Q Op}.
Arguments NMRemoveMut {K Q Op}.
Arguments NMGet {K Q Op}.
Arguments NMGetKeyValue {K Q Op}.
Arguments NMContains {K Q Op}.
Arguments NMSize {K Q Op}.
Arguments NMIsEmpty {K Q Op}.

(** What they show.  [NMEntry]: the key that was returned and what the calls on the inner version
    showed.  [NMSteps]: the same for each entry that an iterator delivered, with the size hint
    before it. *)
Inductive nmout (K Out : Type) :=
| NMOut (o : nout Out)
| NMEntry (o : option (K * list Out))
| NMSteps (l : list (nat * option (K * list Out))).
Arguments NMOut {K Out}.
Arguments NMEntry {K Out}.
Arguments NMSteps {K Out}.

(** [step]: the calls of the map whose values are opaque; [gm]: [get_mut] and calls through the
    reference it returns. *)
Section Of.
Context {B C E Op Out K Q M : Type} (I : impl C E Op Out) (elem : B -> option E).
Notation P := (prog (dcell B C)).
Context (step : map_op K E Q -> M -> prog B (M * map_obs K E)) (gm : M -> Q -> list Op -> P (M * option (list Out))).
Notation calls := (calls I elem).
Notation make := (make I (@DI B C) d_isI).
Notation peek := (peek (B := B) I).

Definition wm_step (o : nmop K Q Op) (m : M) : P (M * nmout K Out) :=
  match o with
  | NMInsert k l =>
      let* (e, xs) := make l in
      let* (m, _) := calls (step (MInsert k e) m) [e] in
      Ret (m, NMOut (NAll [xs]))
  | NMInsertMut k l =>
      let* (e, xs) := make l in
      let* (m, _) := calls (step (MInsertMut k e) m) [e] in
      Ret (m, NMOut (NAll [xs]))
  | NMCopy q k l =>
      let* (m, o) := calls (step (MGet q) m) [] in
      match o with
      | MoVal None => Ret (m, NMOut (NOuts None))
      | MoVal (Some e) =>
          let* e := inj DI d_isI (i_clone I e) in
          let* (e, xs) := inj DI d_isI (irun I l e) in
          let* (m, _) := calls (step (MInsertMut k e) m) [e] in
          Ret (m, NMOut (NOuts (Some xs)))
      | _ => Fail
      end
  | NMUpdate q l => let* (m, r) := gm m q l in Ret (m, NMOut (NOuts r))
  | NMRemove q => let* (m, _) := calls (step (MRemove q) m) [] in Ret (m, NMOut NUnit)
  | NMRemoveMut q =>
      let* (m, o) := calls (step (MRemoveMut q) m) [] in
      match o with MoBool b => Ret (m, NMOut (NBool b)) | _ => Fail end
  | NMGet q l =>
      let* (m, o) := calls (step (MGet q) m) [] in
      match o with MoVal o => let* r := peek l o in Ret (m, NMOut (NOuts r)) | _ => Fail end
  | NMGetKeyValue q l =>
      let* (m, o) := calls (step (MGetKeyValue q) m) [] in
      match o with
      | MoKV None => Ret (m, NMEntry None)
      | MoKV (Some (k, e)) =>
          let* r := peek l (Some e) in
          match r with Some xs => Ret (m, NMEntry (Some (k, xs))) | None => Fail end
      | _ => Fail
      end
  | NMContains q =>
      let* (m, o) := calls (step (MContains q) m) [] in
      match o with MoBool b => Ret (m, NMOut (NBool b)) | _ => Fail end
  | NMSize =>
      let* (m, o) := calls (step MSize m) [] in
      match o with MoNat n => Ret (m, NMOut (NNat n)) | _ => Fail end
  | NMIsEmpty =>
      let* (m, o) := calls (step MIsEmpty m) [] in
      match o with MoBool b => Ret (m, NMOut (NBool b)) | _ => Fail end
  end.
End Of.

(** ** The same as plain values: finite maps to values *)
Section Spec.
Context {V Op Out K Q : Type} (S : spec V Op Out).
Variable keq : K -> K -> bool.
Variable borrow : K -> Q.
Variable qeq : Q -> Q -> bool.

Notation found := (fm_find borrow qeq).
Notation after l x := (fst (vrun S l x)).
Notation shows l x := (snd (vrun S l x)).

Definition wm_val (o : nmop K Q Op) (m : fmap K V) : fmap K V * nmout K Out :=
  match o with
  | NMInsert k l | NMInsertMut k l => (fm_insert keq k (after l (s_new S)) m, NMOut (NAll [shows l (s_new S)]))
  | NMCopy q k l =>
      match found q m with
      | Some kv => (fm_insert keq k (after l (snd kv)) m, NMOut (NOuts (Some (shows l (snd kv)))))
      | None => (m, NMOut (NOuts None))
      end
  | NMUpdate q l =>
      (fm_modify borrow qeq q (fun x => after l x) m, NMOut (NOuts (option_map (fun kv => shows l (snd kv)) (found q m))))
  | NMRemove q => (fm_remove borrow qeq q m, NMOut NUnit)
  | NMRemoveMut q => (fm_remove borrow qeq q m, NMOut (NBool (is_some (found q m))))
  | NMGet q l => (m, NMOut (NOuts (option_map (fun kv => shows l (snd kv)) (found q m))))
  | NMGetKeyValue q l => (m, NMEntry (option_map (fun kv => (fst kv, shows l (snd kv))) (found q m)))
  | NMContains q => (m, NMOut (NBool (is_some (found q m))))
  | NMSize => (m, NMOut (NNat (length m)))
  | NMIsEmpty => (m, NMOut (NBool (is_nil m)))
  end.

(** The calls on the inner versions may be made. *)
Definition wm_pre (o : nmop K Q Op) (m : fmap K V) : Prop :=
  match o with
  | NMInsert _ l | NMInsertMut _ l => vmay S l (s_new S)
  | NMCopy q _ l | NMUpdate q l | NMGet q l | NMGetKeyValue q l => opt_may S l (option_map snd (found q m))
  | _ => True
  end.
End Spec.
