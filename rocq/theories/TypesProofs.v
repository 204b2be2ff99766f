(** Proofs about types and tensor views. *)
From Coq Require Import Lia Permutation.
From Verif Require Import Sym SymFacts SymFuns Types.
Local Open Scope Z_scope.

(* ---------------- specification of tensor addressing ---------------- *)
(** A multi-index within a shape. *)
Definition inrange (sh idx : list Z) : Prop := Forall2 (fun d k => 0 <= k < d) sh idx.
(** Distance of an element from the offset. *)
Fixpoint dot (idx st : list Z) : Z :=
  match idx, st with k :: idx', s :: st' => k * s + dot idx' st' | _, _ => 0 end.
(** Row-major rank: the position of [idx] in lexicographic order. *)
Fixpoint rank (sh idx : list Z) : Z :=
  match sh, idx with _ :: sh', k :: idx' => k * fold_right Z.mul 1 sh' + rank sh' idx' | _, _ => 0 end.
Definition zprodr (sh : list Z) : Z := fold_right Z.mul 1 sh.
(** The numeric shape, strides and offset of a tensor type in a valuation. *)
Definition tev (s : env) (t : tensor) (sh st : list Z) (o : Z) : Prop :=
  Forall2 (fun e z => eval s e = Some z) (t_shape t) sh /\
  Forall2 (fun e z => eval s e = Some z) (t_strides t) st /\ eval s (t_offset t) = Some o /\ length sh = length st.
(** The view (sh', st', o') addresses, at every index [idx] of its shape,
    the element [f idx] of the original, each element exactly once. *)
Definition view (sh st : list Z) (o : Z) (sh' st' : list Z) (o' : Z) (f : list Z -> list Z) : Prop :=
  (forall idx, inrange sh' idx -> inrange sh (f idx) /\ o' + dot idx st' = o + dot (f idx) st) /\
  (forall j, inrange sh j -> exists idx, inrange sh' idx /\ f idx = j) /\
  (forall idx idx', inrange sh' idx -> inrange sh' idx' -> f idx = f idx' -> idx = idx').

Lemma F2_len {A B} (P : A -> B -> Prop) l m : Forall2 P l m -> length l = length m.
Proof. induction 1; simpl; auto. Qed.
(* ---------------- evaluation helpers ---------------- *)
Lemma eval_ev s e z : eval s e = Some z <-> ev s e = Fin z.
Proof. unfold eval. destruct (ev s e); split; congruence. Qed.
Lemma eval_smul s a b x y : eval s a = Some x -> eval s b = Some y -> eval s (smul a b) = Some (x * y).
Proof. rewrite !eval_ev, ev_smul. intros -> ->. reflexivity. Qed.
Lemma eval_sadd s a b x y : eval s a = Some x -> eval s b = Some y -> eval s (sadd a b) = Some (x + y).
Proof. rewrite !eval_ev, ev_sadd. intros -> ->. reflexivity. Qed.
Lemma eval_ssub s a b x y : eval s a = Some x -> eval s b = Some y -> eval s (ssub a b) = Some (x - y).
Proof. rewrite !eval_ev, ev_ssub. intros -> ->. cbn [xmul xadd]. try (f_equal; lia). Qed.
Lemma eval_int s z : eval s (EInt z) = Some z. Proof. reflexivity. Qed.

Notation evl s := (Forall2 (fun e z => eval s e = Some z)).
Lemma eval_fold_mul s es zs : evl s es zs -> forall a x, eval s a = Some x -> eval s (fold_left smul es a) = Some (x * zprodr zs).
Proof.
  induction 1; intros a x0 Ha; simpl.
  - rewrite Ha. f_equal. unfold zprodr. simpl. lia.
  - erewrite IHForall2; [|apply eval_smul; eauto]. f_equal. unfold zprodr; simpl. lia.
Qed.
Lemma eval_prod_exprs s es zs : evl s es zs -> eval s (prod_exprs es) = Some (zprodr zs).
Proof. intros H. unfold prod_exprs. erewrite eval_fold_mul; eauto using eval_int. f_equal. lia. Qed.

(* ---------------- row-major strides ---------------- *)
Fixpoint rm (sh : list Z) : list Z := match sh with [] => [] | _ :: r => zprodr r :: rm r end.
Lemma rm_length sh : length (rm sh) = length sh. Proof. induction sh; simpl; auto. Qed.
Lemma dot_rm sh : forall idx, dot idx (rm sh) = rank sh idx.
Proof. induction sh as [|d sh IH]; intros [|k idx]; simpl; auto. rewrite IH. reflexivity. Qed.
Lemma eval_strides s es zs : evl s es zs -> evl s (strides_from_shape es) (rm zs).
Proof.
  induction 1 as [|e z es zs H1 H2 IH]; simpl; [constructor|].
  destruct H2 as [|e' z' es zs H2 H3]; simpl in *; [constructor; auto; reflexivity|].
  inversion IH as [|a b c d E1 E2]; subst. constructor; [|constructor; auto].
  rewrite (eval_smul _ _ _ _ _ E1 H2). f_equal. unfold zprodr; simpl. lia.
Qed.
Lemma compute_strides_spec sh : compute_strides_acc sh = (rm sh, zprodr sh).
Proof. induction sh as [|d sh IH]; simpl; auto. rewrite IH. f_equal. unfold zprodr. simpl. lia. Qed.
Lemma compute_strides_rm sh : compute_strides sh = rm sh.
Proof. unfold compute_strides. rewrite compute_strides_spec. auto. Qed.

(** range, injectivity, surjectivity of the rank *)
Lemma inrange_pos sh idx : inrange sh idx -> 0 < zprodr sh.
Proof. induction 1; unfold zprodr in *; simpl; nia. Qed.
Lemma rank_range sh idx : inrange sh idx -> 0 <= rank sh idx < zprodr sh.
Proof. induction 1 as [|d k sh idx H1 H2 IH]; unfold zprodr in *; simpl; [lia|]. nia. Qed.
Lemma rank_inj sh idx : inrange sh idx -> forall idx', inrange sh idx' -> rank sh idx = rank sh idx' -> idx = idx'.
Proof.
  induction 1 as [|d k sh idx H1 H2 IH]; intros idx' H' E; inversion H' as [|a b c j G1 G2]; subst; auto.
  simpl in E. fold (zprodr sh) in E. pose proof (rank_range _ _ H2). pose proof (rank_range _ _ G2).
  assert (k = b) by nia. subst. f_equal. apply IH; auto. lia.
Qed.
Fixpoint unrank (sh : list Z) (r : Z) : list Z :=
  match sh with [] => [] | _ :: sh' => r / zprodr sh' :: unrank sh' (r mod zprodr sh') end.
Lemma unrank_ok sh : Forall (fun d => 0 <= d) sh -> forall r, 0 <= r < zprodr sh -> inrange sh (unrank sh r) /\ rank sh (unrank sh r) = r.
Proof.
  intros H. induction H as [|d sh Hd Hs IH]; intros r Hr; simpl; unfold zprodr in Hr; simpl in Hr.
  - split; [constructor|lia].
  - fold (zprodr sh) in Hr. fold (zprodr sh).
    assert (0 <= zprodr sh) as Hz. { clear IH Hr. induction Hs; unfold zprodr in *; simpl; nia. }
    assert (0 < zprodr sh) as Hp by nia.
    destruct (IH (r mod zprodr sh)) as [H1 H2]; [apply Z.mod_pos_bound; auto|].
    split.
    + constructor; auto. split; [apply Z.div_pos; lia|]. apply Z.div_lt_upper_bound; auto. lia.
    + rewrite H2. rewrite (Z.div_mod r (zprodr sh)) at 3 by lia. lia.
Qed.

(* ---------------- linearized access ---------------- *)
Lemma lin_fold_ok s : forall sh sub st acc e o idx stz, evl s sub idx -> evl s st stz -> eval s acc = Some o ->
  length sh = length sub -> length sh = length st -> lin_fold acc sh sub st = Some e -> eval s e = Some (o + dot idx stz).
Proof.
  induction sh as [|d sh IH]; intros sub st acc e o idx stz Hs Ht Ho L1 L2 H; simpl in H.
  - injection H as <-. destruct sub; [|discriminate]. inversion Hs; subst. simpl. rewrite Ho. f_equal. lia.
  - destruct sub as [|i sub]; [discriminate|]. destruct st as [|t st]; [discriminate|].
    inversion Hs as [|? k ? idx' E1 E2]; subst. inversion Ht as [|? z ? stz' F1 F2]; subst. simpl in L1, L2.
    erewrite (IH sub st _ e (o + k * z)); [| | | | | |exact H]; eauto; try lia.
    + simpl. f_equal. lia.
    + apply eval_sadd; auto. apply eval_smul; auto.
Qed.
Lemma linearize_ok s t sh st o sub idx e : tev s t sh st o -> evl s sub idx -> length sub = length (t_shape t) ->
  linearize t sub = Some e -> eval s e = Some (o + dot idx st).
Proof.
  intros (T1 & T2 & T3 & T4) Hs L H. pose proof (F2_len _ _ _ T1). pose proof (F2_len _ _ _ T2). eapply (lin_fold_ok s (t_shape t)); [exact Hs|exact T2|exact T3|lia|lia|exact H].
Qed.
Lemma linearize_total t sub : length sub = length (t_shape t) -> length (t_strides t) = length (t_shape t) -> exists e, linearize t sub = Some e.
Proof.
  unfold linearize. generalize (t_offset t) as acc, (t_shape t) as sh, (t_strides t) as st. intros acc sh. revert acc sub.
  induction sh as [|d sh IH]; intros acc sub st L1 L2; simpl; eauto.
  destruct sub; [discriminate|]. destruct st; [discriminate|]. simpl in *. apply IH; lia.
Qed.

(* ---------------- list surgery ---------------- *)
Lemma F2_insert {A B} (P : A -> B -> Prop) n x y : forall l m, Forall2 P l m -> P x y -> Forall2 P (insert_at n x l) (insert_at n y m).
Proof.
  unfold insert_at. induction n; intros l m H Hp; simpl.
  - constructor; auto.
  - destruct H; simpl; constructor; auto; apply IHn; auto.
Qed.
Lemma F2_erase {A B} (P : A -> B -> Prop) n : forall l m, Forall2 P l m -> Forall2 P (erase_at n l) (erase_at n m).
Proof.
  unfold erase_at. induction n; intros l m H; destruct H; simpl; auto. constructor; auto; apply IHn; auto.
Qed.
Lemma F2_set {A B} (P : A -> B -> Prop) n x y : forall l m, (n < length l)%nat -> Forall2 P l m -> P x y -> Forall2 P (set_at n x l) (set_at n y m).
Proof.
  unfold set_at. induction n; intros l m L H Hp; destruct H; simpl in *; try lia; constructor; auto; apply IHn; auto; lia.
Qed.
Lemma F2_nth {A B} (P : A -> B -> Prop) n d d' : forall l m, (n < length l)%nat -> Forall2 P l m -> P (nth n l d) (nth n m d').
Proof. induction n; intros l m L H; destruct H; simpl in *; try lia; auto. apply IHn; auto; lia. Qed.
Lemma F2_insert_inv {A B} (P : A -> B -> Prop) n x : forall l m, (n <= length l)%nat -> Forall2 P (insert_at n x l) m ->
  exists y m', m = insert_at n y m' /\ P x y /\ Forall2 P l m' /\ m' = erase_at n m.
Proof.
  unfold insert_at, erase_at. induction n; intros l m L H; simpl in *.
  - inversion H; subst. exists y, l'. auto.
  - destruct l as [|a l]; simpl in *; [lia|]. inversion H; subst. destruct (IHn l l') as (z & m' & E1 & E2 & E3 & E4); auto; try lia.
    exists z, (y :: m'). subst. simpl. repeat split; auto. f_equal; auto.
Qed.
Lemma erase_insert {A} n (x : A) : forall l, (n <= length l)%nat -> erase_at n (insert_at n x l) = l.
Proof. unfold erase_at, insert_at. induction n; intros l L; simpl; auto. destruct l; simpl in *; [lia|]. f_equal. apply IHn. lia. Qed.
Lemma insert_erase {A} n (d : A) : forall l, (n < length l)%nat -> insert_at n (nth n l d) (erase_at n l) = l.
Proof.
  unfold erase_at, insert_at. induction n; intros l L; destruct l as [|a l]; simpl in L; try lia; simpl; auto.
  f_equal. apply IHn. lia.
Qed.
Lemma dot_insert n k z : forall idx st, (n <= length idx)%nat -> length idx = length st ->
  dot (insert_at n k idx) (insert_at n z st) = k * z + dot idx st.
Proof.
  unfold insert_at. induction n; intros idx st L E; simpl; auto.
  destruct idx as [|i idx]; simpl in *; [lia|]. destruct st as [|t st]; simpl in *; [lia|]. rewrite IHn; lia.
Qed.
Lemma set_insert {A} n (x : A) : forall l, (n < length l)%nat -> set_at n x l = insert_at n x (erase_at n l).
Proof.
  unfold set_at, insert_at, erase_at. induction n; intros l L; destruct l; simpl in *; try lia; auto.
  rewrite IHn by lia. auto.
Qed.
Lemma erase_length {A} n : forall l : list A, (n < length l)%nat -> S (length (erase_at n l)) = length l.
Proof. unfold erase_at. induction n; intros l L; destruct l; simpl in *; try lia. rewrite IHn; lia. Qed.
Lemma insert_length {A} n (x : A) : forall l, (n <= length l)%nat -> length (insert_at n x l) = S (length l).
Proof. unfold insert_at. induction n; intros l L; simpl; auto. destruct l; simpl in *; [lia|]. rewrite IHn; lia. Qed.
Lemma insert_inj {A} n (x : A) : forall l m, (n <= length l)%nat -> (n <= length m)%nat -> insert_at n x l = insert_at n x m -> l = m.
Proof. intros l m Hl Hm E. rewrite <- (erase_insert n x l), <- (erase_insert n x m), E; auto. Qed.

(* ---------------- views ---------------- *)
Lemma newaxis_ok s t sh st o ax t' : tev s t sh st o -> newaxis ax t = Some t' ->
  tev s t' (insert_at ax 1 sh) (insert_at ax 0 st) o /\ view sh st o (insert_at ax 1 sh) (insert_at ax 0 st) o (erase_at ax).
Proof.
  unfold newaxis. destruct (Nat.ltb_spec (length (t_shape t)) ax); [discriminate|]. intros (T1 & T2 & T3 & T4) [= <-].
  pose proof (F2_len _ _ _ T1) as L1.
  assert (ax <= length sh)%nat as La by lia.
  split.
  - repeat split; simpl; auto; try (apply F2_insert; auto; reflexivity).
    rewrite !insert_length; lia.
  - repeat split.
    + destruct (F2_insert_inv _ _ _ _ _ La H0) as (y & m & -> & Hy & Hm & _).
      rewrite erase_insert; auto. apply F2_len in Hm. lia.
    + destruct (F2_insert_inv _ _ _ _ _ La H0) as (y & m & -> & Hy & Hm & _). apply F2_len in Hm as Lm.
      rewrite erase_insert by lia. rewrite dot_insert; lia.
    + intros j Hj. apply F2_len in Hj as Lj. exists (insert_at ax 0 j). split; [apply F2_insert; auto; lia|]. apply erase_insert. lia.
    + intros idx idx' H1 H2 E.
      destruct (F2_insert_inv _ _ _ _ _ La H1) as (y & m & -> & Hy & Hm & _). apply F2_len in Hm as Lm.
      destruct (F2_insert_inv _ _ _ _ _ La H2) as (y' & m' & -> & Hy' & Hm' & _). apply F2_len in Hm' as Lm'.
      rewrite !erase_insert in E by lia. subst. f_equal. lia.
Qed.

Lemma dot_at ax k l st : (ax <= length l)%nat -> length st = S (length l) ->
  dot (insert_at ax k l) st = k * nth ax st 0 + dot l (erase_at ax st).
Proof.
  intros H L. rewrite <- (insert_erase ax 0 st) at 1 by lia. apply dot_insert; auto.
  pose proof (erase_length ax st). lia.
Qed.
Definition flip_idx (ax : nat) (n : Z) (idx : list Z) : list Z := set_at ax (n - 1 - nth ax idx 0) idx.
Lemma flip_ok_z sh st o ax : (ax < length sh)%nat -> length sh = length st ->
  view sh st o sh (set_at ax (- nth ax st 0) st) (o + nth ax st 0 * (nth ax sh 0 - 1)) (flip_idx ax (nth ax sh 0)).
Proof.
  intros La L.
  assert (forall idx, inrange sh idx -> inrange sh (flip_idx ax (nth ax sh 0) idx)) as Hin.
  { intros idx H. unfold flip_idx. rewrite <- (insert_erase ax 0 sh) at 1 by auto. rewrite set_insert by (apply F2_len in H; lia).
    apply F2_insert; [apply F2_erase; auto|]. pose proof (F2_nth _ ax 0 0 _ _ La H). simpl in *. lia. }
  assert (forall idx, inrange sh idx -> flip_idx ax (nth ax sh 0) (flip_idx ax (nth ax sh 0) idx) = idx) as Hinv.
  { intros idx H. pose proof (F2_len _ _ _ H) as Li. unfold flip_idx.
    rewrite !set_insert by (rewrite ?set_insert, ?insert_length; try (pose proof (erase_length ax idx); lia)).
    assert (ax <= length (erase_at ax idx))%nat by (pose proof (erase_length ax idx); lia).
    rewrite erase_insert by auto.
    assert (nth ax (insert_at ax (nth ax sh 0 - 1 - nth ax idx 0) (erase_at ax idx)) 0 = nth ax sh 0 - 1 - nth ax idx 0) as ->.
    { clear -H0. revert H0. generalize (nth ax sh 0 - 1 - nth ax idx 0) as v. generalize (erase_at ax idx) as l. unfold insert_at.
      induction ax; intros l v L; simpl; auto. destruct l; simpl in *; [lia|]. apply IHax. lia. }
    rewrite <- (insert_erase ax 0 idx) at 3 by lia. f_equal. lia. }
  repeat split.
  - apply Hin; auto.
  - pose proof (F2_len _ _ _ H) as Li. unfold flip_idx.
    rewrite <- (insert_erase ax 0 idx) at 1 by lia. rewrite !set_insert by lia.
    assert (ax <= length (erase_at ax idx))%nat by (pose proof (erase_length ax idx); lia).
    assert (length (erase_at ax idx) = length (erase_at ax st)) by (pose proof (erase_length ax idx); pose proof (erase_length ax st); lia).
    rewrite (dot_at ax _ _ st) by (pose proof (erase_length ax idx); lia). rewrite !dot_insert by auto. lia.
  - intros j Hj. exists (flip_idx ax (nth ax sh 0) j). auto.
  - intros idx idx' H1 H2 E. rewrite <- (Hinv idx), <- (Hinv idx'), E; auto.
Qed.
Lemma flip_ok s t sh st o ax t' : tev s t sh st o -> flip ax t = Some t' ->
  exists st' o', tev s t' sh st' o' /\ view sh st o sh st' o' (flip_idx ax (nth ax sh 0)).
Proof.
  unfold flip. destruct (Nat.ltb_spec ax (length (t_shape t))); [|discriminate]. intros (T1 & T2 & T3 & T4) [= <-].
  pose proof (F2_len _ _ _ T1) as L1. pose proof (F2_len _ _ _ T2) as L2.
  exists (set_at ax (- nth ax st 0) st), (o + nth ax st 0 * (nth ax sh 0 - 1)). split; [|apply flip_ok_z; lia].
  assert (eval s (nth ax (t_strides t) (EInt 0)) = Some (nth ax st 0)) as Es by (apply (F2_nth (fun e z => eval s e = Some z)); auto; lia).
  repeat split; simpl; auto.
  - apply F2_set; auto; [lia|]. rewrite (eval_smul s (EInt (-1)) _ (-1) (nth ax st 0)); auto using eval_int.
  - apply eval_sadd; auto. apply eval_smul; auto. apply eval_ssub; auto using eval_int.
    apply (F2_nth (fun e z => eval s e = Some z)); auto.
  - rewrite set_insert by lia. rewrite insert_length by (pose proof (erase_length ax st); lia). pose proof (erase_length ax st); lia.
Qed.

Lemma squeeze_axis_ok s t sh st o ax t' : tev s t sh st o -> squeeze_axis ax t = Some t' ->
  tev s t' (erase_at ax sh) (erase_at ax st) o /\ view sh st o (erase_at ax sh) (erase_at ax st) o (insert_at ax 0).
Proof.
  unfold squeeze_axis. destruct (nth_error (t_shape t) ax) as [d|] eqn:N; [|discriminate].
  destruct d; try discriminate. destruct z as [|[]|]; try discriminate. intros (T1 & T2 & T3 & T4) [= <-].
  assert (ax < length (t_shape t))%nat as La by (apply nth_error_Some; congruence).
  pose proof (F2_len _ _ _ T1) as L1.
  assert (nth ax sh 0 = 1) as E1.
  { pose proof (F2_nth _ ax (EInt 0) 0 _ _ La T1) as Q. simpl in Q. erewrite nth_error_nth in Q by eauto. injection Q as <-. auto. }
  assert (ax < length sh)%nat as Ls by lia.
  pose proof (erase_length ax sh Ls) as Le. pose proof (erase_length ax st) as Lt.
  split.
  - repeat split; simpl; auto; try (apply F2_erase; auto). lia.
  - assert (forall idx, inrange (erase_at ax sh) idx -> inrange sh (insert_at ax 0 idx)) as Hin.
    { intros idx H. rewrite <- (insert_erase ax 0 sh) by auto. apply F2_insert; auto. lia. }
    repeat split.
    + apply Hin; auto.
    + apply F2_len in H as Li. rewrite <- (insert_erase ax 0 st) at 2 by lia. rewrite dot_insert by lia. lia.
    + intros j Hj. exists (erase_at ax j). split; [apply F2_erase; auto|].
      assert (nth ax j 0 = 0) as Ej. { pose proof (F2_nth _ ax 0 0 _ _ Ls Hj) as Q. simpl in Q. lia. }
      rewrite <- Ej at 1. apply insert_erase. apply F2_len in Hj. lia.
    + intros idx idx' H1 H2 E. apply F2_len in H1, H2. eapply insert_inj; [| |exact E]; lia.
Qed.

(** squeeze(): put 0 back at every dimension written as the literal 1 *)
Fixpoint unsq (sh : list expr) (idx : list Z) : list Z :=
  match sh with
  | [] => []
  | d :: sh' => if is_one_dim d then 0 :: unsq sh' idx
                else match idx with k :: idx' => k :: unsq sh' idx' | [] => [] end
  end.
Lemma is_one_dim_eq d : is_one_dim d = true -> d = EInt 1.
Proof. destruct d; try discriminate. destruct z as [|[]|]; try discriminate. auto. Qed.
Lemma squeeze_lists_ok s : forall shE stE sh st, evl s shE sh -> evl s stE st -> length sh = length st ->
  exists sh' st', evl s (fst (squeeze_lists shE stE)) sh' /\ evl s (snd (squeeze_lists shE stE)) st' /\ length sh' = length st' /\
    forall o, view sh st o sh' st' o (unsq shE).
Proof.
  induction shE as [|d shE IH]; intros stE sh st H1 H2 L.
  - inversion H1; subst. destruct st; [|discriminate]. inversion H2; subst. exists [], [].
    split; [constructor|]. split; [constructor|]. split; [reflexivity|]. intros o. split; [|split].
    + intros idx H. inversion H; subst. split; auto.
    + intros j Hj. inversion Hj; subst. exists []. auto.
    + intros idx idx' Ha Hb _. inversion Ha; inversion Hb; auto.
  - inversion H1 as [|? z ? sh1 E1 E2]; subst. destruct st as [|y st]; [discriminate|]. inversion H2 as [|e ? stE1 ? F1 F2]; subst.
    destruct (IH stE1 sh1 st E2 F2) as (sh' & st' & G1 & G2 & G3 & G4); [simpl in L; lia|].
    cbn [squeeze_lists unsq]. destruct (squeeze_lists shE stE1) as [a b]. cbn [fst snd] in *. destruct (is_one_dim d) eqn:D.
    + apply is_one_dim_eq in D. subst d. injection E1 as <-. exists sh', st'.
      split; auto. split; auto. split; auto. intros o. destruct (G4 o) as (V1 & V2 & V3); clear G4. split; [|split].
      * intros idx H. destruct (V1 _ H). split; [constructor; auto; lia|]. cbn [dot]. lia.
      * intros j Hj. inversion Hj as [|? k ? j' K1 K2]; subst. destruct (V2 _ K2) as (idx & ? & <-). exists idx. split; auto. f_equal; lia.
      * intros idx idx' Ha Hb Q. injection Q as Q. auto.
    + exists (z :: sh'), (y :: st'). cbn [fst snd]. split; [constructor; auto|]. split; [constructor; auto|]. split; [simpl; auto|].
      intros o. destruct (G4 o) as (V1 & V2 & V3); clear G4. split; [|split].
      * intros idx H. inversion H as [|? k ? j' K1 K2]; subst. destruct (V1 _ K2) as [? Q]. split; [constructor; auto|]. cbn [dot]. lia.
      * intros j Hj. inversion Hj as [|? k ? j' K1 K2]; subst. destruct (V2 _ K2) as (idx & Hi & <-). exists (k :: idx). split; auto. constructor; auto.
      * intros idx idx' Ha Hb Q. inversion Ha; subst. inversion Hb; subst. injection Q as -> Q. f_equal. auto.
Qed.
Lemma squeeze_ok s t sh st o : tev s t sh st o ->
  exists sh' st', tev s (squeeze t) sh' st' o /\ view sh st o sh' st' o (unsq (t_shape t)).
Proof.
  intros (T1 & T2 & T3 & T4). destruct (squeeze_lists_ok s _ _ _ _ T1 T2 T4) as (sh' & st' & G1 & G2 & G3 & G4).
  exists sh', st'. unfold squeeze. destruct (squeeze_lists (t_shape t) (t_strides t)) as [a b]. simpl in *. split; auto. repeat split; auto.
Qed.

(* ---------------- reshape ---------------- *)
Lemma reshape_eval s t sh st o new nsh t' : tev s t sh st o -> reshape new t = Some t' -> evl s new nsh ->
  tev s t' nsh (rm nsh) o /\ zprodr nsh = zprodr sh.
Proof.
  unfold reshape. destruct (expr_eqb (total_elements t) (prod_exprs new)) eqn:E; [|discriminate]. intros (T1 & T2 & T3 & T4) [= <-] Hn.
  split; [repeat split; simpl; auto using eval_strides; rewrite rm_length; auto|].
  apply expr_eqb_eq in E. pose proof (eval_prod_exprs s _ _ T1) as Q1. pose proof (eval_prod_exprs s _ _ Hn) as Q2.
  unfold total_elements in E. rewrite E, Q2 in Q1. injection Q1 as ->. auto.
Qed.
