(** Model of FunctionBuilder::find_new_name, sdfg/src/builder/function_builder.cpp:201-209,
    and Function::exists, sdfg/src/function.cpp:65-67. The container table is the
    list of its names; [size_t] does not overflow (it would take 2^64 containers).
    The C++ loop is unbounded: fuel, [None] when exhausted. *)
From Coq Require Import Lia.
From Verif Require Import Capture StrFacts.
Local Open Scope string_scope.

Definition exists_name (names : list string) (n : string) : bool := existsb (String.eqb n) names.
Fixpoint new_name_loop (fuel : nat) (names : list string) (prefix : string) (i : nat) : option string :=
  match fuel with
  | O => None
  | S fuel => let n := prefix ++ to_string_u (N.of_nat i) in
              if exists_name names n then new_name_loop fuel names prefix (i + 1) else Some n
  end.
Definition find_new_name (fuel : nat) (names : list string) (prefix : string) : option string := new_name_loop fuel names prefix 0.

Lemma exists_name_spec names n : exists_name names n = true <-> In n names.
Proof.
  unfold exists_name. rewrite existsb_exists. split.
  - intros (x & I & E). apply String.eqb_eq in E. subst. exact I.
  - intros I. exists n. split; [exact I|apply String.eqb_refl].
Qed.
Definition cand (prefix : string) (i : nat) : string := prefix ++ to_string_u (N.of_nat i).
Lemma cand_inj p i j : cand p i = cand p j -> i = j.
Proof. unfold cand. intros H. apply sapp_inj_l, to_string_u_inj in H. lia. Qed.
Lemma cand_NoDup p n : NoDup (map (cand p) (seq 0 n)).
Proof.
  assert (K: forall l, NoDup l -> NoDup (map (cand p) l)).
  { induction 1 as [|x l N D IH]; simpl; constructor; [|exact IH]. intros I. apply in_map_iff in I as (y & E & I).
    apply cand_inj in E. subst. contradiction. }
  apply K, seq_NoDup.
Qed.
Lemma loop_spec names p : forall fuel i r, new_name_loop fuel names p i = Some r ->
  exists j, (i <= j)%nat /\ r = cand p j /\ ~ In r names /\ forall k, (i <= k < j)%nat -> In (cand p k) names.
Proof.
  induction fuel as [|fuel IH]; intros i r H; [discriminate|]. cbn [new_name_loop] in H. fold (cand p i) in H.
  destruct (exists_name names (cand p i)) eqn:E.
  - destruct (IH _ _ H) as (j & L & R & N & A). exists j. split; [lia|]. split; [exact R|]. split; [exact N|].
    intros k Hk. destruct (Nat.eq_dec k i) as [->|]; [apply exists_name_spec; exact E|]. apply A. lia.
  - injection H as <-. exists i. split; [lia|]. split; [reflexivity|]. split; [rewrite <- exists_name_spec; congruence|]. lia.
Qed.
Lemma loop_total names p : forall fuel i, new_name_loop fuel names p i = None -> forall k, (i <= k < i + fuel)%nat -> In (cand p k) names.
Proof.
  induction fuel as [|fuel IH]; intros i H k Hk; [lia|]. cbn [new_name_loop] in H. fold (cand p i) in H.
  destruct (exists_name names (cand p i)) eqn:E; [|discriminate].
  destruct (Nat.eq_dec k i) as [->|]; [apply exists_name_spec; exact E|]. apply (IH (i + 1)%nat H). lia.
Qed.
Lemma find_total names p fuel : (List.length names < fuel)%nat -> find_new_name fuel names p <> None.
Proof.
  intros L H. pose proof (loop_total names p fuel 0 H) as A.
  assert (I: incl (map (cand p) (seq 0 fuel)) names).
  { intros x I. apply in_map_iff in I as (k & <- & I). apply in_seq in I. apply A. lia. }
  apply NoDup_incl_length in I; [|apply cand_NoDup]. rewrite map_length, seq_length in I. lia.
Qed.
