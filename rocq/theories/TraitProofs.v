(** Generic lemmas for the traits: everything follows from what iteration yields. *)
From Coq Require Import String List NArith Arith Bool Lia Permutation.
From Verif Require Import Base Spec SpecMap SpecOrd SpecTrait SpecSerde Sim IterStd TraitModel.
Import ListNotations.

Lemma iterates_sim : forall St A (next : St -> res (option A * St)) hint, iter_sim next hint (iterates next hint).
Proof.
  intros St A next hint s l H. pose proof (H 1) as H1. cbn [runs fwd_spec] in H1.
  destruct (hint s) as [h| |] eqn:Eh; try discriminate. cbn [bind] in H1.
  destruct (next s) as [[o s']| |] eqn:En; try discriminate. cbn [bind] in H1. injection H1 as -> ->.
  split; [reflexivity|]. exists s'. split; [reflexivity|]. intros k. specialize (H (S k)). cbn [runs fwd_spec] in H.
  rewrite Eh in H. cbn [bind] in H. rewrite En in H. cbn [bind] in H.
  destruct (runs next hint k s'); cbn [bind] in H; try discriminate. congruence.
Qed.
Lemma iterates_sim0 : forall St A (next : St -> res (option A * St)) hint, iter_sim0 next (iterates next hint).
Proof. intros. eapply iter_sim_sim0. apply iterates_sim. Qed.

Lemma iterates_of_sim : forall St A (next : St -> res (option A * St)) hint I, iter_sim next hint I ->
  forall s l, I s l -> iterates next hint s l.
Proof. intros St A next hint I H s l HI k. eapply sim_runs; eassumption. Qed.

Lemma iterates_of_sim2 : forall St A (next back : St -> res (option A * St)) hint I, iter_sim2 next back hint I ->
  forall s l, I s l -> iterates next hint s l.
Proof.
  intros St A next back hint I H. apply iterates_of_sim. intros s l HI.
  destruct (H s l HI) as (Hh & Hn & _). auto.
Qed.

Lemma collect_iterates : forall St A (next : St -> res (option A * St)) hint s l,
  iterates next hint s l -> collect next (S (length l)) s = Ok l.
Proof. intros. eapply sim_collect; [apply iterates_sim0|eassumption|lia]. Qed.

Lemma iterates_map : forall St A B (next : St -> res (option A * St)) hint (f : A -> B) s l,
  iterates next hint s l ->
  iterates (fun i => let! (o, i) := next i in Ok (option_map f o, i)) hint s (map f l).
Proof.
  intros St A B next hint f s l H.
  apply (iterates_of_sim _ _ _ _ (fun s l' => exists l, l' = map f l /\ iterates next hint s l)); [|eauto].
  clear s l H. intros s l' (l & -> & H). destruct (iterates_sim _ _ _ _ s l H) as (Hh & s' & E & H').
  rewrite map_length. split; [exact Hh|]. exists s'. rewrite E. cbn [bind].
  split; [now destruct l|]. exists (tl l). split; [now destruct l|exact H'].
Qed.

(** ** Comparison and hashing *)
Section Two.
Context {S1 S2 A B : Type}.
Variable next1 : S1 -> res (option A * S1).
Variable next2 : S2 -> res (option B * S2).
Variable hint1 : S1 -> res nat.
Variable hint2 : S2 -> res nat.

Lemma eq_iterates : forall eqb s1 l1 s2 l2 len (b : bool), iterates next1 hint1 s1 l1 -> iterates next2 hint2 s2 l2 ->
  len = length l1 -> (b = true <-> length l1 = length l2) ->
  exists r, (if b then iter_eq next1 next2 eqb (S len) s1 s2 else Ok false) = Ok r /\
    (r = true <-> seq_equal eqb l1 l2).
Proof.
  intros eqb s1 l1 s2 l2 len b H1 H2 -> Hb. destruct b.
  - eapply iter_eq_ok; [apply iterates_sim0|apply iterates_sim0|exact H1|exact H2|lia].
  - exists false. split; [reflexivity|]. split; [discriminate|]. intros H. apply seq_equal_length in H. tauto.
Qed.
Lemma partial_cmp_iterates : forall cmp s1 l1 s2 l2 len, iterates next1 hint1 s1 l1 -> iterates next2 hint2 s2 l2 ->
  len = length l1 -> iter_partial_cmp next1 next2 cmp (S len) s1 s2 = Ok (plex cmp l1 l2).
Proof. intros cmp s1 l1 s2 l2 len H1 H2 ->. eapply iter_partial_cmp_ok; [apply iterates_sim0|apply iterates_sim0|exact H1|exact H2|lia]. Qed.
End Two.
Lemma cmp_iterates : forall S1 S2 A (next1 : S1 -> res (option A * S1)) (next2 : S2 -> res (option A * S2)) hint1 hint2 cmp s1 l1 s2 l2 len,
  iterates next1 hint1 s1 l1 -> iterates next2 hint2 s2 l2 ->
  len = length l1 -> iter_cmp next1 next2 cmp (S len) s1 s2 = Ok (lex cmp l1 l2).
Proof. intros S1 S2 A next1 next2 hint1 hint2 cmp s1 l1 s2 l2 len H1 H2 ->. eapply iter_cmp_lex; [apply iterates_sim0|apply iterates_sim0|exact H1|exact H2|lia]. Qed.
Lemma hash_iterates : forall St A (next : St -> res (option A * St)) hint h s l len,
  iterates next hint s l -> len = length l -> hash_loop next h len s = Ok (seq_feed h l).
Proof. intros St A next hint h s l len H ->. unfold hash_loop. rewrite (collect_iterates _ _ _ _ _ _ H). reflexivity. Qed.

(** ** Formatting *)
Lemma until_error_app : forall W (a b : list (action W)) w,
  until_error (a ++ b) w = let! (w, ok) := until_error a w in if ok : bool then until_error b w else Ok (w, false).
Proof.
  intros W. induction a as [|x a IH]; intros b w; [reflexivity|]. cbn [until_error app]. destruct (x w) as [[w' ok]| |]; cbn [bind]; auto.
  destruct ok; auto.
Qed.
Lemma until_error_one : forall W (a : action W) w, until_error [a] w = a w.
Proof. intros W a w. cbn [until_error]. destruct (a w) as [[w' [|]]| |]; reflexivity. Qed.

Section Fmt.
Context {W : Type}.
Variable write_str : string -> action W.

Lemma fmt_loop_ok : forall St A (next : St -> res (option A * St)) hint item (group : A -> list (action W)) close,
  (forall a w, item a w = until_error (group a) w) ->
  forall l s fuel w (first : bool), iterates next hint s l -> length l < fuel ->
  fmt_loop write_str next item close fuel s first w =
    until_error ((if first then [] else match l with [] => [] | _ => [write_str ", "%string] end)
                 ++ separated (write_str ", "%string) (map group l) ++ [write_str close]) w.
Proof.
  intros St A next hint item group close Hi. induction l as [|a l IH]; intros s fuel w first H Hf;
    (destruct fuel as [|fuel]; [cbn in Hf; lia|]); cbn [fmt_loop];
    destruct (iterates_sim0 _ _ _ _ s _ H) as (s' & -> & H'); cbn [bind hd_error tl] in *.
  - replace (if first then [] else []) with (@nil (action W)) by now destruct first. cbn [map separated app]. now rewrite until_error_one.
  - assert (E : separated (write_str ", "%string) (map group (a :: l)) =
               group a ++ (match l with [] => [] | _ => [write_str ", "%string] end) ++ separated (write_str ", "%string) (map group l)).
    { cbn [map]. destruct l; cbn [separated map app]; [now rewrite app_nil_r|reflexivity]. }
    rewrite E. clear E. rewrite until_error_app. destruct first; cbn [negb].
    + cbn [until_error bind]. rewrite <- !app_assoc, until_error_app, Hi.
      destruct (until_error (group a) w) as [[w' [|]]| |]; cbn [bind]; try reflexivity.
      rewrite (IH s' fuel w' false H') by (cbn in Hf; lia). reflexivity.
    + rewrite until_error_one. destruct (write_str ", "%string w) as [[w1 [|]]| |]; cbn [bind]; try reflexivity.
      rewrite <- !app_assoc, until_error_app, Hi.
      destruct (until_error (group a) w1) as [[w' [|]]| |]; cbn [bind]; try reflexivity.
      rewrite (IH s' fuel w' false H') by (cbn in Hf; lia). reflexivity.
Qed.

Lemma fmt_with_ok : forall St A (next : St -> res (option A * St)) hint item (group : A -> list (action W)) open close,
  (forall a w, item a w = until_error (group a) w) ->
  forall l s len w, iterates next hint s l -> len = length l ->
  fmt_with write_str next item open close len s w =
    until_error (write_str open :: separated (write_str ", "%string) (map group l) ++ [write_str close]) w.
Proof.
  intros St A next hint item group open close Hi l s len w H ->. unfold fmt_with. cbn [until_error].
  destruct (write_str open w) as [[w' [|]]| |]; cbn [bind]; try reflexivity.
  rewrite (fmt_loop_ok _ _ _ hint _ group) with (l := l); auto.
Qed.

Lemma fmt_one : forall A (item : A -> action W) a w, item a w = until_error [item a] w.
Proof. intros. now rewrite until_error_one. Qed.
Lemma fmt_entry_ok : forall K V (kfmt : K -> action W) (vfmt : V -> action W) kv w,
  fmt_entry write_str kfmt vfmt kv w = until_error [kfmt (fst kv); write_str ": "%string; vfmt (snd kv)] w.
Proof.
  intros. unfold fmt_entry. cbn [until_error]. destruct (kfmt (fst kv) w) as [[w1 [|]]| |]; cbn [bind]; try reflexivity.
  destruct (write_str ": "%string w1) as [[w2 [|]]| |]; cbn [bind]; try reflexivity.
  destruct (vfmt (snd kv) w2) as [[w3 [|]]| |]; reflexivity.
Qed.
End Fmt.

(** A sink that never fails and keeps everything. *)
Definition to_string (s : string) : action string := fun w => Ok ((w ++ s)%string, true).

Lemma str_app_assoc : forall a b c : string, ((a ++ b) ++ c = a ++ (b ++ c))%string.
Proof. induction a as [|x a IH]; intros b c; cbn; [reflexivity|]. now rewrite IH. Qed.
Lemma str_app_nil : forall a : string, (a ++ "")%string = a.
Proof. induction a as [|x a IH]; cbn; congruence. Qed.

Lemma until_error_strings : forall l w, until_error (map to_string l) w = Ok ((w ++ String.concat "" l)%string, true).
Proof.
  induction l as [|s l IH]; intros w.
  - cbn. now rewrite str_app_nil.
  - cbn [map until_error to_string bind]. rewrite IH. f_equal. f_equal. rewrite str_app_assoc. f_equal.
    destruct l; cbn [String.concat]; [now rewrite str_app_nil|reflexivity].
Qed.
Lemma concat_nil_app : forall a b, String.concat "" (a ++ b)%list = (String.concat "" a ++ String.concat "" b)%string.
Proof.
  induction a as [|x a IH]; intros b; [reflexivity|]. cbn [app].
  assert (E : forall x l, String.concat "" (x :: l) = (x ++ String.concat "" l)%string).
  { intros y l. destruct l; cbn [String.concat]; [now rewrite str_app_nil|reflexivity]. }
  rewrite !E, IH. now rewrite str_app_assoc.
Qed.

Lemma separated_map : forall X Y (f : X -> Y) sep gs, separated (f sep) (map (map f) gs) = map f (separated sep gs).
Proof.
  induction gs as [|g gs IH]; [reflexivity|]. cbn [map separated]. destruct gs; [reflexivity|].
  cbn [map] in *. rewrite map_app. cbn [map]. f_equal. f_equal. exact IH.
Qed.
Lemma separated_text : forall gs, String.concat "" (separated ", "%string gs) = String.concat ", " (map (String.concat "") gs).
Proof.
  induction gs as [|g gs IH]; [reflexivity|]. destruct gs as [|g' gs]; [reflexivity|].
  change (separated ", "%string (g :: g' :: gs)) with (g ++ ", "%string :: separated ", "%string (g' :: gs))%list.
  rewrite concat_nil_app. change (", "%string :: separated ", "%string (g' :: gs))%list with ([", "%string] ++ separated ", "%string (g' :: gs))%list.
  rewrite concat_nil_app, IH. reflexivity.
Qed.

(** Displaying into a string. *)
Lemma fmt_text : forall A (group : A -> list string) open close l w,
  until_error (to_string open :: separated (to_string ", "%string) (map (fun a => map to_string (group a)) l) ++ [to_string close]) w
  = Ok ((w ++ text open close (map (fun a => String.concat "" (group a)) l))%string, true).
Proof.
  intros A group open close l w.
  replace (map (fun a => map to_string (group a)) l) with (map (map to_string) (map group l)) by (now rewrite map_map).
  rewrite separated_map.
  change (to_string open :: map to_string (separated ", "%string (map group l)) ++ [to_string close])
    with (map to_string [open] ++ (map to_string (separated ", "%string (map group l)) ++ map to_string [close]))%list.
  rewrite <- !map_app, until_error_strings, !concat_nil_app, separated_text, map_map. unfold text. cbn [String.concat].
  reflexivity.
Qed.

(** ** Serialisation *)
Section Ser.
Context {St D E I It : Type}.
Variable ser_begin : option nat -> St + E.
Variable ser_end : St -> D + E.
Variable ser_item : I -> St -> St + E.
Variable next : It -> res (option I * It).
Variable hint : It -> res nat.

Lemma ser_loop_ok : forall l i fuel s, iterates next hint i l -> length l < fuel ->
  ser_loop ser_item next fuel i s = Ok (ser_items ser_item l s).
Proof.
  induction l as [|x l IH]; intros i fuel s H Hf; (destruct fuel as [|fuel]; [cbn in Hf; lia|]); cbn [ser_loop ser_items];
    destruct (iterates_sim0 _ _ _ _ i _ H) as (i' & -> & H'); cbn [bind hd_error tl] in *; [reflexivity|].
  destruct (ser_item x s); [|reflexivity]. apply IH; [assumption|cbn in Hf; lia].
Qed.
Lemma collect_ser_ok : forall l i len, iterates next hint i l -> len = length l ->
  collect_ser ser_begin ser_end ser_item next hint len i = Ok (ser_doc ser_begin ser_item ser_end l).
Proof.
  intros l i len H ->. unfold collect_ser, ser_doc. destruct (iterates_sim _ _ _ _ i l H) as (-> & _). cbn [bind].
  destruct (ser_begin (Some (length l))); [|reflexivity]. rewrite (ser_loop_ok l); auto.
Qed.
End Ser.

(** ** Deserialisation *)
Fixpoint foldm {C I} (add : C -> I -> res C) (l : list I) (c : C) : res C :=
  match l with [] => Ok c | x :: l' => let! c := add c x in foldm add l' c end.

Lemma visit_loop_ok : forall A I E (next : A -> option (I * A) + E) C (add : C -> I -> res C) a l fin, gives next a l fin ->
  forall fuel c, length l < fuel ->
  visit_loop next add fuel a c = let! c := foldm add l c in Ok (match fin with None => inl c | Some e => inr e end).
Proof.
  intros A I E next C add a l fin H. induction H as [a Ha|a e Ha|a x a' l fin Ha H IH]; intros fuel c Hf;
    (destruct fuel as [|fuel]; [cbn in Hf; lia|]); cbn [visit_loop foldm]; rewrite Ha; try reflexivity.
  destruct (add c x) as [c'| |]; cbn [bind]; auto. apply IH. cbn in Hf; lia.
Qed.

Lemma foldm_snoc : forall A (l c : list A), foldm (fun vec x => Ok (vec ++ [x])%list) l c = Ok (c ++ l)%list.
Proof.
  intros A. induction l as [|x l IH]; intros c; cbn [foldm bind]; [now rewrite app_nil_r|]. rewrite IH, <- app_assoc. reflexivity.
Qed.
