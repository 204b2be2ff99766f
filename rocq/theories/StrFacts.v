(** Decimal printing and string concatenation facts. *)
From Coq Require Import DecimalString DecimalN DecimalZ DecimalPos Ascii Lia.
From Verif Require Import Capture.
Local Open Scope string_scope.
Local Open Scope Z_scope.

Lemma sapp_nil s : s ++ "" = s.
Proof. induction s; simpl; congruence. Qed.
Lemma sapp_assoc a b c : (a ++ b) ++ c = a ++ (b ++ c).
Proof. induction a; simpl; congruence. Qed.
Lemma sapp_inj_l a : forall s t, a ++ s = a ++ t -> s = t.
Proof. induction a; simpl; intros s t H; [exact H|]. injection H. apply IHa. Qed.
Lemma sapp_len a b : String.length (a ++ b) = (String.length a + String.length b)%nat.
Proof. induction a; simpl; congruence. Qed.
Lemma sapp_inj_len : forall a b s t, String.length a = String.length b -> a ++ s = b ++ t -> a = b /\ s = t.
Proof.
  induction a; intros [|y b] s t L H; simpl in *; try discriminate; [auto|].
  injection H as -> H. destruct (IHa b s t) as [-> ->]; auto.
Qed.
Lemma sapp_inj_r a b s : a ++ s = b ++ s -> a = b.
Proof.
  intros H. apply (sapp_inj_len a b s s); [|exact H]. apply (f_equal String.length) in H. rewrite !sapp_len in H. lia.
Qed.

(** [all P s]: every character satisfies [P] *)
Fixpoint sall (P : ascii -> bool) (s : string) : bool :=
  match s with "" => true | String a r => P a && sall P r end.
Definition is_digit (a : ascii) : bool := let n := N_of_ascii a in ((48 <=? n) && (n <=? 57))%N.
Definition not_us (a : ascii) : bool := negb (Ascii.eqb a "_").
Lemma sall_impl (P Q : ascii -> bool) s : (forall a, P a = true -> Q a = true) -> sall P s = true -> sall Q s = true.
Proof. intros H. induction s; simpl; auto. rewrite !andb_true_iff. intros [A B]. auto. Qed.
Lemma digit_not_us a : is_digit a = true -> not_us a = true.
Proof. unfold not_us. destruct (Ascii.eqb_spec a "_"); [subst; vm_compute; discriminate|reflexivity]. Qed.

Lemma sep_inj : forall a a' s t, sall not_us a = true -> sall not_us a' = true -> a ++ String "_" s = a' ++ String "_" t -> a = a' /\ s = t.
Proof.
  induction a as [|x a IH]; intros [|y a'] s t A A' H; simpl in *.
  - injection H. auto.
  - injection H as E H. subst y. discriminate A'.
  - injection H as E H. subst x. discriminate A.
  - injection H as E H. subst y. apply andb_true_iff in A as [_ A], A' as [_ A'].
    destruct (IH a' s t) as [-> ->]; auto.
Qed.

Lemma uint_digits : forall d, sall is_digit (NilEmpty.string_of_uint d) = true.
Proof. induction d; simpl; auto. Qed.
Lemma zuint_digits d : sall is_digit (NilZero.string_of_uint d) = true.
Proof. destruct d; try reflexivity; apply uint_digits. Qed.
Lemma zuint_nonempty d : NilZero.string_of_uint d <> "".
Proof. destruct d; discriminate. Qed.
Lemma to_uint_nonnil n : N.to_uint n <> Decimal.Nil.
Proof. destruct n; simpl; [discriminate|]. apply DecimalPos.Unsigned.to_uint_nonnil. Qed.

Lemma to_string_u_digits n : sall is_digit (to_string_u n) = true.
Proof. apply zuint_digits. Qed.
Lemma to_string_u_nonempty n : to_string_u n <> "".
Proof. apply zuint_nonempty. Qed.
Lemma to_string_u_us n : sall not_us (to_string_u n) = true.
Proof. eapply sall_impl; [apply digit_not_us|apply to_string_u_digits]. Qed.
Lemma to_string_u_inj n m : to_string_u n = to_string_u m -> n = m.
Proof.
  unfold to_string_u. intros H. apply (f_equal NilZero.uint_of_string) in H.
  rewrite !NilZero.usu in H by apply to_uint_nonnil. injection H. apply DecimalN.Unsigned.to_uint_inj.
Qed.
Lemma to_int_nonnil z : Z.to_int z <> Decimal.Pos Decimal.Nil /\ Z.to_int z <> Decimal.Neg Decimal.Nil.
Proof.
  destruct z; simpl; split; try discriminate; intros H; injection H; apply DecimalPos.Unsigned.to_uint_nonnil.
Qed.
Lemma to_string_z_inj n m : to_string_z n = to_string_z m -> n = m.
Proof.
  unfold to_string_z. intros H. apply (f_equal NilZero.int_of_string) in H.
  rewrite !NilZero.isi in H by apply to_int_nonnil. injection H. apply DecimalZ.to_int_inj.
Qed.
Lemma to_string_z_us n : sall not_us (to_string_z n) = true.
Proof.
  unfold to_string_z. assert (K: forall d, sall not_us (NilZero.string_of_uint d) = true).
  { intros d. eapply sall_impl; [apply digit_not_us|apply zuint_digits]. }
  destruct (Z.to_int n); simpl; auto.
Qed.

(** string <-> characters *)
Lemma chars_str_of l : Forall (fun z => 0 <= z < 256) l -> chars_of (str_of l) = l.
Proof.
  induction 1 as [|z l Hz F IH]; [reflexivity|].
  unfold str_of in *. cbn [fold_right chars_of]. rewrite IH. f_equal. rewrite N_ascii_embedding by lia. lia.
Qed.

(** file names identify what they store *)
Lemma index_file_inj name k k' e e' : 0 <= k -> 0 <= k' ->
  index_file name k e = index_file name k' e' -> k = k' /\ e = e'.
Proof.
  unfold index_file. intros K K' H. apply sapp_inj_l in H. apply (sapp_inj_l "_inv") in H.
  apply sep_inj in H as [A B]; [|apply to_string_u_us|apply to_string_u_us].
  apply to_string_u_inj in A. apply sapp_inj_r in B. split; [lia|exact B].
Qed.
Lemma arg_file_inj name k i a e k' i' a' e' : 0 <= k -> 0 <= k' ->
  arg_file name k i a e = arg_file name k' i' a' e' -> k = k' /\ i = i' /\ a = a' /\ e = e'.
Proof.
  unfold arg_file. intros K K' H. apply sapp_inj_l in H. apply (sapp_inj_l "_inv") in H.
  apply sep_inj in H as [A B]; [|apply to_string_u_us|apply to_string_u_us].
  apply to_string_u_inj in A. apply (sapp_inj_l "arg") in B.
  apply sep_inj in B as [C D]; [|apply to_string_z_us|apply to_string_z_us].
  apply to_string_z_inj in C.
  assert (E: sall not_us (if a then "out" else "in") = true) by (destruct a; reflexivity).
  assert (E': sall not_us (if a' then "out" else "in") = true) by (destruct a'; reflexivity).
  apply sep_inj in D as [F G]; [|exact E|exact E'].
  apply sapp_inj_r in G. split; [lia|]. split; [exact C|]. split; [|exact G].
  destruct a, a'; try reflexivity; discriminate F.
Qed.
Lemma arg_index_file name k i a e k' (e' : N) : arg_file name k i a e <> index_file name k' (to_string_u e').
Proof.
  unfold arg_file, index_file. intros H. apply sapp_inj_l in H. apply (sapp_inj_l "_inv") in H.
  apply sep_inj in H as [_ B]; [|apply to_string_u_us|apply to_string_u_us].
  pose proof (to_string_u_digits e') as D. pose proof (to_string_u_nonempty e') as N.
  destruct (to_string_u e') as [|x r]; [congruence|]. simpl in B. injection B as <- _.
  vm_compute in D. discriminate D.
Qed.
