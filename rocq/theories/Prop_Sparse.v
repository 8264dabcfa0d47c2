(** C18: the sparse array behind each branch of a HashTrieMap. *)
From Coq Require Import List NArith Arith Bool Lia.
From Verif Require Import Base Spec SparseModel SparseProofs.
Import ListNotations.
Local Open Scope N_scope.

(** Every history of set / remove / get_mut / get / first / size / iteration / clone on a
    sparse array of [ubits] slots answers as a partial function from indices, in both build
    profiles and without panicking. *)
Theorem C18_sparse_array : forall (A : Type) (ubits : N) (dbg : bool), 0 < ubits ->
  forall (ops : list (sparse_op A)), (forall o, In o ops -> sparse_index o < ubits) ->
  exists s, exec_m (sa_step ubits dbg) ops sa_new
            = Ok (s, snd (exec_s (sparse_spec ubits) ops (fun _ => None))).
Proof. intros A ubits dbg Hu ops H. exact (sparse_history ubits dbg Hu ops H). Qed.
Print Assumptions C18_sparse_array.

Example C18_ops : list (sparse_op N) :=
  [SpSet 63 7; SpSet 0 1; SpSet 5 2; SpGetMut 5 (N.add 40); SpIter; SpRemove 0; SpRemove 4;
   SpFirst; SpGet 63; SpGet 0; SpSize; SpSet 63 8; SpIter].
Example C18_sparse_array_example :
  (forall o, In o C18_ops -> sparse_index o < 64) /\
  exists s, exec_m (sa_step 64 true) C18_ops sa_new =
    Ok (s, [SpoUnit; SpoUnit; SpoUnit; SpoElem (Some 2); SpoList [1; 42; 7]; SpoUnit; SpoUnit;
            SpoElem (Some 42); SpoElem (Some 7); SpoElem None; SpoNat 2; SpoUnit; SpoList [42; 8]]).
Proof.
  split; [|eexists; vm_compute; reflexivity].
  intros o H. repeat (destruct H as [<-|H]; [reflexivity|]). destruct H.
Qed.
