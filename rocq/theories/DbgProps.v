(** * C82: source locations *)
From Coq Require Import String List ZArith Bool Lia.
From Verif Require Import Sym SymFacts SymFuns Json Types Serial Dbg DbgProofs.
Import ListNotations.
Open Scope string_scope.
Open Scope list_scope.
Open Scope Z_scope.

(** When all locations of a program are in one file and one function, the pass gives every
    control flow node the range of lines of everything inside it ([hull]). *)
Theorem C82_range_partial f g q : Forall (here f g) (infos_s q) ->
  Forall2 (fun r o => hull (fst r) (snd o)) (nodes_s (prop_s q)) (nodes_s q).
Proof. intros H. exact (proj2 (proj1 (proj2 (hull_mut f g)) q H)). Qed.
(** In the result every node's lines cover those of everything inside it. *)
Theorem C82_covers_partial f g q d l e : Forall (here f g) (infos_s q) -> In (d, l) (nodes_s (prop_s q)) -> In e l -> d_has e = true ->
  d_has d = true /\ d_l1 d <= d_l1 e /\ d_l2 e <= d_l2 d.
Proof.
  intros H I Ie He. pose proof (proj1 (proj1 (proj2 (here_mut f g)) q H)) as U.
  pose proof (C82_range_partial f g _ U) as R. rewrite (proj1 (proj2 (idem_mut f g)) q H) in R.
  assert (K : forall L, Forall2 (fun r o : dbg * list dbg => hull (fst r) (snd o)) L L -> forall x, In x L -> hull (fst x) (snd x)).
  { intros L. induction L as [|x L IH]; intros F y J; [destruct J|]. inversion F; subst. destruct J as [<-|J]; [assumption|apply IH; assumption]. }
  destruct (K _ R _ I) as (A & B & _). cbn [fst snd] in *. split; [apply A; exists e; split; assumption|apply B; assumption].
Qed.
(** Running the pass again changes nothing. *)
Theorem C82_again_partial f g q : Forall (here f g) (infos_s q) -> prop_s (prop_s q) = prop_s q.
Proof. exact (proj1 (proj2 (idem_mut f g)) q). Qed.
(** Merging locations of one file and function can be grouped in any way. *)
Theorem C82_grouping_partial f g a b c : here f g a -> here f g b -> here f g c -> merge (merge a b) c = merge a (merge b c).
Proof. apply merge_assoc. Qed.
(** For every program: a node has a location exactly when something inside it had one, and a
    node that had one keeps its file and its lines. *)
Theorem C82_located q : Forall2 (fun r o => d_has (fst r) = existsb d_has (snd o) /\
  (d_has (fst o) = true -> d_has (fst r) = true /\ d_file (fst r) = d_file (fst o) /\ d_l1 (fst r) <= d_l1 (fst o) /\ d_l2 (fst o) <= d_l2 (fst r)))
  (nodes_s (prop_s q)) (nodes_s q).
Proof. exact (proj2 (proj1 (proj2 alike_mut) q)). Qed.
(** For every program: the range a node gets starts where something of the same file inside it
    starts, ends where something of that file inside it ends, and names the function of
    something of that file inside it (or none, as that does). *)
Theorem C82_no_mixing q : Forall2 (fun r o => let d := fst r in d_has d = true ->
  (exists e, In e (snd o) /\ d_has e = true /\ d_file e = d_file d /\ d_l1 e = d_l1 d /\ d_c1 e = d_c1 d) /\
  (exists e, In e (snd o) /\ d_has e = true /\ d_file e = d_file d /\ d_l2 e = d_l2 d /\ d_c2 e = d_c2 d) /\
  (exists e, In e (snd o) /\ d_has e = true /\ d_file e = d_file d /\ d_func e = d_func d))
  (nodes_s (prop_s q)) (nodes_s q).
Proof. exact (proj2 (proj1 (proj2 found_mut) q)). Qed.
(** For every program: the pass changes nothing but the locations of control flow nodes. *)
Theorem C82_only_locations q : strip_s (prop_s q) = strip_s q.
Proof. exact (proj1 (proj2 strip_mut) q). Qed.

Definition loc (g : string) (a b c d : Z) : dbg := {| d_has := true; d_file := "main.c"; d_func := g; d_l1 := a; d_c1 := b; d_l2 := c; d_c2 := d |}.
(** Columns are not covered: of two locations that start on the same line the second gives
    the column. *)
Theorem C82_columns_refuted : exists a b, here "main.c" "main" a /\ here "main.c" "main" b /\ d_has a = true /\
  d_l1 (merge a b) = d_l1 a /\ d_c1 a < d_c1 (merge a b) /\ d_l2 (merge a b) = d_l2 a /\ d_c2 (merge a b) < d_c2 a.
Proof. exists (loc "main" 1 1 1 9), (loc "main" 1 5 1 7).
  split; [intros _; split; [reflexivity|right; reflexivity]|]. split; [intros _; split; [reflexivity|right; reflexivity]|]. repeat split. Qed.
(** With two functions in the program (after inlining) and a location that names none, the
    lines a sequence gets depend on the order of its children, and lines are left out. *)
Definition kid (d : dbg) (k : ckids) : ckids := KCons (XBlock (1, d) [] []) (2, dbg0) [] k.
Theorem C82_functions_refuted :
  let q a b c := CSeq (0, dbg0) (kid a (kid b (kid c KNil))) in
  let x := loc "" 1 1 1 1 in let y := loc "f" 5 1 5 1 in let z := loc "g" 9 1 9 1 in
  d_l2 (top_s (prop_s (q x y z))) = 5 /\ d_l2 (top_s (prop_s (q x z y))) = 9 /\ d_l2 (top_s (prop_s (q y x z))) = 5 /\
  d_func (top_s (prop_s (q x y z))) = "f" /\ d_func (top_s (prop_s (q x z y))) = "g" /\
  merge (merge y x) z <> merge y (merge x z).
Proof. repeat split; try reflexivity. vm_compute. discriminate. Qed.

(** A loop around a block with a located edge, and a break on a later line. *)
Example C82_hypotheses :
  let q := CSeq (0, dbg0) (KCons (XWhile (1, dbg0) (CSeq (2, dbg0)
     (KCons (XBlock (3, dbg0) [((4, dbg0), DAccess "A"); ((5, loc "" 4 2 4 8), DTasklet 0 ["_in"] "_out")] []) (6, loc "main" 3 1 3 4) []
     (KCons (XBreak (7, loc "main" 6 3 6 8)) (8, dbg0) [] KNil)))) (9, dbg0) [] KNil) in
  Forall (here "main.c" "main") (infos_s q) /\ map fst (nodes_s q) = [dbg0; dbg0; dbg0; dbg0; loc "main" 6 3 6 8] /\
  map fst (nodes_s (prop_s q)) = [loc "main" 3 1 6 8; loc "main" 3 1 6 8; loc "main" 3 1 6 8; loc "" 4 2 4 8; loc "main" 6 3 6 8].
Proof.
  cbn [infos_s infos_k infos_n app map fst snd]. split; [|split; reflexivity].
  repeat constructor; cbn in *; try discriminate; first [left; reflexivity|right; reflexivity].
Qed.
