(** TensorInfo views, type equality, sizes, type inference, type-derived bounds. *)
From Coq Require Import Lia Permutation.
From Verif Require Import Sym SymFacts SymFuns SymProofs1 SymProofs2 Types TypesProofs.
Local Open Scope Z_scope.

(* ---------------- positional view of dot / inrange ---------------- *)
Definition sumf (f : nat -> Z) (l : list nat) : Z := fold_right (fun p a => f p + a) 0 l.
Lemma sumf_perm f l l' : Permutation l l' -> sumf f l = sumf f l'.
Proof. induction 1; simpl; lia. Qed.
Lemma sumf_map f g l : sumf f (map g l) = sumf (fun p => f (g p)) l.
Proof. induction l; simpl; auto. f_equal; auto. Qed.
Lemma dot_sum : forall idx st, length idx = length st -> dot idx st = sumf (fun p => nth p idx 0 * nth p st 0) (seq 0 (length idx)).
Proof.
  induction idx as [|k idx IH]; intros [|z st] L; simpl in *; try lia; auto.
  rewrite IH by lia. f_equal. rewrite <- seq_shift, sumf_map. auto.
Qed.
Lemma dot_map f g : forall l : list nat, dot (map f l) (map g l) = sumf (fun p => f p * g p) l.
Proof. induction l; simpl; auto. f_equal; auto. Qed.
Lemma inrange_map f g : forall l : list nat, inrange (map f l) (map g l) <-> forall p, In p l -> 0 <= g p < f p.
Proof.
  induction l as [|a l IH]; simpl; split; intros H.
  - intros p [].
  - constructor.
  - inversion H; subst. intros p [<-|Hp]; auto. apply IH; auto.
  - constructor; [apply H; auto|]. apply IH. intros. apply H; auto.
Qed.
Lemma inrange_nth sh idx p : inrange sh idx -> (p < length sh)%nat -> 0 <= nth p idx 0 < nth p sh 0.
Proof. intros H L. exact (F2_nth _ p 0 0 _ _ L H). Qed.

Lemma nth_map {A} (g : A -> Z) (d : A) : forall l n, (n < length l)%nat -> nth n (map g l) 0 = g (nth n l d).
Proof. induction l as [|a l IH]; intros [|n] L; simpl in *; try lia; auto. apply IH. lia. Qed.
Lemma map_nth_seq (l : list Z) : map (fun p => nth p l 0) (seq 0 (length l)) = l.
Proof.
  apply (nth_ext _ _ 0 0); [rewrite map_length, seq_length; auto|]. rewrite map_length, seq_length. intros n Hn.
  rewrite (nth_map _ O) by (rewrite seq_length; auto). rewrite seq_nth; auto.
Qed.

(** idx' is idx read through the permutation: idx'[k] = idx[perm[k]] *)
Definition gather (perm : list nat) (idx : list Z) : list Z := map (fun p => nth p idx 0) perm.
Lemma transpose_ok t perm : length (i_shape t) = length (i_strides t) -> Permutation perm (seq 0 (length (i_shape t))) ->
  forall idx, inrange (i_shape t) idx ->
    inrange (i_shape (ti_transpose perm t)) (gather perm idx) /\
    i_offset (ti_transpose perm t) + dot (gather perm idx) (i_strides (ti_transpose perm t)) = i_offset t + dot idx (i_strides t).
Proof.
  intros L P idx H. pose proof (F2_len _ _ _ H) as Li. split.
  - apply inrange_map. intros p Hp. apply (Permutation_in p P) in Hp. apply in_seq in Hp. apply inrange_nth; auto. lia.
  - simpl. f_equal. unfold gather. rewrite dot_map, dot_sum by congruence. rewrite <- Li. apply sumf_perm; auto.
Qed.
Lemma gather_inj perm n : Permutation perm (seq 0 n) -> forall idx idx', length idx = n -> length idx' = n ->
  gather perm idx = gather perm idx' -> idx = idx'.
Proof.
  intros P idx idx' L L' E. apply (nth_ext _ _ 0 0); [congruence|]. intros p Hp.
  assert (In p perm) as Hin by (apply (Permutation_in p (Permutation_sym P)); apply in_seq; lia).
  unfold gather in E. clear -E Hin. induction perm as [|q perm IH]; [destruct Hin|]. injection E as E1 E2. destruct Hin as [<-|]; auto.
Qed.
Lemma gather_surj perm sh : Permutation perm (seq 0 (length sh)) -> forall j, inrange (map (fun p => nth p sh 0) perm) j ->
  exists idx, inrange sh idx /\ gather perm idx = j.
Proof.
  intros P j Hj.
  (* position of p in perm *)
  assert (forall p, (p < length sh)%nat -> exists k, (k < length perm)%nat /\ nth k perm O = p) as Pos.
  { intros p Hp. apply (In_nth perm p O). apply (Permutation_in p (Permutation_sym P)), in_seq. lia. }
  set (find := fun p => (fix go (l : list nat) : nat := match l with [] => O | q :: l' => if Nat.eqb p q then O else S (go l') end) perm).
  assert (forall p, In p perm -> (find p < length perm)%nat /\ nth (find p) perm O = p) as Hf.
  { intros p. unfold find. clear. induction perm as [|q perm IH]; intros H; [destruct H|]. simpl. destruct (Nat.eqb_spec p q); subst.
    - split; [lia|auto].
    - destruct H as [|H]; [congruence|]. destruct (IH H). split; [lia|auto]. }
  assert (forall k, (k < length perm)%nat -> find (nth k perm O) = k) as Hg.
  { assert (NoDup perm) as ND by (eapply Permutation_NoDup; [apply Permutation_sym; eauto|apply seq_NoDup]).
    intros k Hk. destruct (Hf (nth k perm O)) as [F1 F2]; [apply nth_In; auto|].
    eapply (proj1 (NoDup_nth perm O) ND); auto. }
  pose proof (F2_len _ _ _ Hj) as Lj. rewrite map_length in Lj.
  exists (map (fun p => nth (find p) j 0) (seq 0 (length sh))). split.
  - rewrite <- (map_nth_seq sh) at 1. apply inrange_map. intros p Hp. apply (Permutation_in p (Permutation_sym P)) in Hp. destruct (Hf p Hp) as [F1 F2].
    assert (0 <= nth (find p) j 0 < nth (find p) (map (fun p => nth p sh 0) perm) 0) as Q by (apply inrange_nth; auto; rewrite map_length; auto).
    rewrite (nth_map _ O), F2 in Q; auto.
  - apply (nth_ext _ _ 0 0); unfold gather; [rewrite map_length; auto|]. rewrite map_length. intros k Hk.
    rewrite (nth_map _ O) by auto.
    assert (nth k perm O < length sh)%nat as Hb. { assert (In (nth k perm O) perm) as Hi by (apply nth_In; auto). apply (Permutation_in _ P), in_seq in Hi. lia. }
    rewrite (nth_map _ O) by (rewrite seq_length; auto). rewrite seq_nth by auto. simpl. rewrite Hg; auto.
Qed.

(** flip over several axes *)
Definition flip_spec (axes : list nat) (sh idx : list Z) : list Z :=
  map (fun p => if existsb (Nat.eqb p) axes then nth p sh 0 - 1 - nth p idx 0 else nth p idx 0) (seq 0 (length idx)).
Lemma view_id sh st o : view sh st o sh st o (fun idx => idx).
Proof. split; [auto|]. split; eauto. Qed.
Lemma view_comp sh st o sh1 st1 o1 sh2 st2 o2 f g :
  view sh st o sh1 st1 o1 f -> view sh1 st1 o1 sh2 st2 o2 g -> view sh st o sh2 st2 o2 (fun idx => f (g idx)).
Proof.
  intros (A1 & A2 & A3) (B1 & B2 & B3). split; [|split].
  - intros idx H. destruct (B1 _ H) as [H1 E1]. destruct (A1 _ H1) as [H2 E2]. split; auto. congruence.
  - intros j Hj. destruct (A2 _ Hj) as (i1 & H1 & <-). destruct (B2 _ H1) as (i2 & H2 & <-). eauto.
  - intros i i' H H' E. apply B3; auto. apply A3; auto; apply B1; auto.
Qed.
Lemma view_ext sh st o sh' st' o' f g : (forall idx, inrange sh' idx -> f idx = g idx) -> view sh st o sh' st' o' f -> view sh st o sh' st' o' g.
Proof.
  intros E (A1 & A2 & A3). split; [|split].
  - intros idx H. rewrite <- E; auto.
  - intros j Hj. destruct (A2 _ Hj) as (i & Hi & <-). exists i. split; auto. symmetry; auto.
  - intros i i' H H' Q. apply A3; auto. rewrite !E; auto.
Qed.
Lemma nth_set {A} (d : A) n x : forall l p, (n < length l)%nat -> nth p (set_at n x l) d = if Nat.eqb p n then x else nth p l d.
Proof.
  unfold set_at. induction n; intros l p L; destruct l as [|a l]; simpl in L; try lia.
  - destruct p; simpl; auto.
  - destruct p; simpl; auto. apply IHn. lia.
Qed.
Lemma set_length {A} n (x : A) l : (n < length l)%nat -> length (set_at n x l) = length l.
Proof. intros L. rewrite set_insert, insert_length; auto; pose proof (erase_length n l L); lia. Qed.
Lemma ti_flip_go_ok orig : forall axes t, i_shape t = i_shape orig -> length (i_strides t) = length (i_shape t) ->
  NoDup axes -> (forall a, In a axes -> (a < length (i_shape t))%nat /\ nth a (i_strides t) 0 = nth a (i_strides orig) 0) ->
  i_shape (ti_flip_go orig axes t) = i_shape t /\ length (i_strides (ti_flip_go orig axes t)) = length (i_shape t) /\
  view (i_shape t) (i_strides t) (i_offset t)
       (i_shape t) (i_strides (ti_flip_go orig axes t)) (i_offset (ti_flip_go orig axes t)) (flip_spec axes (i_shape t)).
Proof.
  induction axes as [|a axes IH]; intros t Es L ND Ha; simpl.
  - split; auto. split; auto. eapply view_ext; [|apply view_id]. intros idx _. symmetry. apply map_nth_seq.
  - inversion ND as [|? ? Na ND']; subst. destruct (Ha a (or_introl eq_refl)) as [La Sa].
    set (t1 := {| i_shape := i_shape t; i_strides := set_at a (- nth a (i_strides orig) 0) (i_strides t);
                  i_offset := i_offset t + (nth a (i_shape orig) 0 - 1) * nth a (i_strides orig) 0 |}).
    destruct (IH t1) as (H1 & H2 & H3); auto.
    { simpl. rewrite set_length; lia. }
    { intros b Hb. destruct (Ha b (or_intror Hb)) as [Lb Sb]. split; auto. simpl. rewrite nth_set by lia.
      destruct (Nat.eqb_spec b a); subst; [contradiction|auto]. }
    change (i_shape t1) with (i_shape t) in *.
    split; auto. split; auto.
    assert (view (i_shape t) (i_strides t) (i_offset t) (i_shape t) (i_strides t1) (i_offset t1) (flip_idx a (nth a (i_shape t) 0))) as V.
    { unfold t1; simpl. rewrite <- Sa, <- Es. rewrite Z.mul_comm. apply flip_ok_z; auto. }
    eapply view_ext; [|exact (view_comp _ _ _ _ _ _ _ _ _ _ _ V H3)].
    intros idx Hi. cbv beta. pose proof (F2_len _ _ _ Hi) as Li. unfold flip_idx.
    assert (length (flip_spec axes (i_shape t) idx) = length idx) as Lf by (unfold flip_spec; rewrite map_length, seq_length; auto).
    apply (nth_ext _ _ 0 0); [rewrite set_length; unfold flip_spec; rewrite !map_length, !seq_length; auto; lia|].
    rewrite set_length by lia. rewrite Lf. intros p Hp. rewrite nth_set by lia.
    assert (forall ax q, (q < length idx)%nat -> nth q (flip_spec ax (i_shape t) idx) 0 = if existsb (Nat.eqb q) ax then nth q (i_shape t) 0 - 1 - nth q idx 0 else nth q idx 0) as Hn.
    { intros ax q Hq. unfold flip_spec.
      rewrite (nth_map _ O) by (rewrite seq_length; auto). rewrite seq_nth by auto. reflexivity. }
    rewrite !Hn by lia. simpl. destruct (Nat.eqb_spec p a); simpl; auto. subst.
    assert (existsb (Nat.eqb a) axes = false) as ->.
    { apply Bool.not_true_iff_false. intros Q. apply existsb_exists in Q as (x & Hx & Q). apply Nat.eqb_eq in Q. subst. contradiction. }
    reflexivity.
Qed.
Lemma ti_flip_ok axes t : length (i_strides t) = length (i_shape t) -> NoDup axes -> (forall a, In a axes -> (a < length (i_shape t))%nat) ->
  view (i_shape t) (i_strides t) (i_offset t) (i_shape (ti_flip axes t)) (i_strides (ti_flip axes t)) (i_offset (ti_flip axes t)) (flip_spec axes (i_shape t)).
Proof.
  intros L ND Ha. destruct (ti_flip_go_ok t axes t) as (H1 & H2 & H3); auto. unfold ti_flip. rewrite H1. auto.
Qed.

Lemma zprod_r l : zprod l = zprodr l.
Proof.
  unfold zprod. assert (forall a, fold_left Z.mul l a = a * zprodr l) as H.
  { induction l as [|d l IH]; intros a; unfold zprodr in *; simpl; [lia|]. rewrite IH. lia. }
  rewrite H. lia.
Qed.
Lemma list_eqb_eq {A} (f : A -> A -> bool) : (forall a b, f a b = true -> a = b) -> forall l m, list_eqb f l m = true -> l = m.
Proof.
  intros H. induction l as [|a l IH]; intros [|b m]; simpl; try discriminate; auto.
  intros Q. apply andb_true_iff in Q as [Q1 Q2]. f_equal; auto.
Qed.
Lemma ti_reshape_ok t sh : is_reshape_valid sh t = true ->
  forall idx j, inrange sh idx -> inrange (i_shape t) j -> rank (i_shape t) j = rank sh idx ->
    i_offset (ti_reshape sh t) + dot idx (i_strides (ti_reshape sh t)) = i_offset t + dot j (i_strides t).
Proof.
  unfold is_reshape_valid, has_basic_strides. intros H idx j Hi Hj E. apply andb_true_iff in H as [H1 H2].
  apply list_eqb_eq in H2; [|intros; apply Z.eqb_eq; auto]. rewrite compute_strides_rm in H2. simpl. rewrite compute_strides_rm, <- H2, !dot_rm. lia.
Qed.
Lemma rank_onto sh idx sh' : Forall (fun d => 0 <= d) sh -> zprodr sh' = zprodr sh -> inrange sh' idx ->
  exists j, inrange sh j /\ rank sh j = rank sh' idx.
Proof. intros H E Hi. exists (unrank sh (rank sh' idx)). apply unrank_ok; auto. rewrite <- E. apply rank_range; auto. Qed.

(* ---------------- types ---------------- *)
Section TyInd.
  Variable P : ty -> Prop.
  Hypothesis H1 : forall a p, P (TScalar a p).
  Hypothesis H2 : forall a e n, P e -> P (TArray a e n).
  Hypothesis H3 : forall a n, P (TStruct a n).
  Hypothesis H4 : forall a, P (TPointer a None).
  Hypothesis H5 : forall a t, P t -> P (TPointer a (Some t)).
  Hypothesis H6 : forall a t, P t -> P (TReference a t).
  Hypothesis H7 : forall a r v ps, P r -> Forall P ps -> P (TFunction a r v ps).
  Hypothesis H8 : forall a p sh st o, P (TTensor a p sh st o).
  Fixpoint ty_rect' (t : ty) : P t :=
    match t with
    | TScalar a p => H1 a p
    | TArray a e n => H2 a e n (ty_rect' e)
    | TStruct a n => H3 a n
    | TPointer a None => H4 a
    | TPointer a (Some t) => H5 a t (ty_rect' t)
    | TReference a t => H6 a t (ty_rect' t)
    | TFunction a r v ps => H7 a r v ps (ty_rect' r)
        ((fix go (l : list ty) : Forall P l := match l with [] => Forall_nil _ | x :: l' => Forall_cons x (ty_rect' x) (go l') end) ps)
    | TTensor a p sh st o => H8 a p sh st o
    end.
End TyInd.
Definition params_eqb := fix go (l m : list ty) : bool :=
  match l, m with [], [] => true | a :: l, b :: m => ty_eqb a b && go l m | _, _ => false end.
Lemma prim_eqb_eq p q : prim_eqb p q = true <-> p = q.
Proof. destruct p, q; simpl; split; congruence. Qed.
Lemma expr_eqb_refl' e : expr_eqb e e = true. Proof. apply expr_eqb_eq. auto. Qed.
Lemma exprs_eqb_eq l m : list_eqb expr_eqb l m = true <-> l = m.
Proof.
  split; [apply list_eqb_eq; intros a b; apply expr_eqb_eq|]. intros <-. induction l; simpl; auto. rewrite expr_eqb_refl', IHl. auto.
Qed.
Lemma ty_eqb_refl t : ty_eqb t t = true.
Proof.
  induction t using ty_rect'; simpl; auto.
  - apply prim_eqb_eq; auto.
  - rewrite expr_eqb_refl', IHt; auto.
  - apply String.eqb_refl.
  - rewrite IHt, N.eqb_refl; auto.
  - rewrite Bool.eqb_reflx, IHt. simpl. induction H; simpl; auto. rewrite H. auto.
  - rewrite expr_eqb_refl', (proj2 (prim_eqb_eq p p) eq_refl). rewrite !(proj2 (exprs_eqb_eq _ _) eq_refl). auto.
Qed.
Ltac ands := repeat match goal with H : _ && _ = true |- _ => apply andb_true_iff in H as [? ?] end.
Ltac eqs := repeat match goal with
  | H : prim_eqb _ _ = true |- _ => apply prim_eqb_eq in H
  | H : expr_eqb _ _ = true |- _ => apply expr_eqb_eq in H
  | H : list_eqb expr_eqb _ _ = true |- _ => apply exprs_eqb_eq in H
  | H : String.eqb _ _ = true |- _ => apply String.eqb_eq in H
  | H : N.eqb _ _ = true |- _ => apply N.eqb_eq in H
  | H : Bool.eqb _ _ = true |- _ => apply Bool.eqb_prop in H
  end.
Lemma ty_eqb_sym t : forall u, ty_eqb t u = true -> ty_eqb u t = true.
Proof.
  induction t using ty_rect'; intros [ | | | ? [|] | | | ]; simpl; try discriminate; auto; intros; ands; eqs; subst;
    rewrite ?expr_eqb_refl', ?String.eqb_refl, ?N.eqb_refl, ?Bool.eqb_reflx, ?(proj2 (prim_eqb_eq _ _) eq_refl), ?(proj2 (exprs_eqb_eq _ _) eq_refl); simpl; auto.
  - rewrite IHt by auto. rewrite H0, N.eqb_refl. auto.
  - rewrite IHt by auto. simpl. clear -H H1. revert ps H H1. induction params as [|b m IH]; intros [|a l] F Q; simpl in *; try discriminate; auto.
    pose proof (Forall_inv F) as Fa; pose proof (Forall_inv_tail F) as Fl. ands. rewrite (Fa b) by auto. simpl. auto.
Qed.
Lemma ty_eqb_trans t : forall u v, ty_eqb t u = true -> ty_eqb u v = true -> ty_eqb t v = true.
Proof.
  induction t using ty_rect'; intros [ | | | ? [|] | | | ] [ | | | ? [|] | | | ]; simpl; try discriminate; auto; intros; ands; eqs; subst;
    rewrite ?expr_eqb_refl', ?String.eqb_refl, ?N.eqb_refl, ?Bool.eqb_reflx, ?(proj2 (prim_eqb_eq _ _) eq_refl), ?(proj2 (exprs_eqb_eq _ _) eq_refl); simpl; eauto.
  - assert (a_align a = a_align a1) as -> by congruence. erewrite IHt; eauto. rewrite N.eqb_refl. auto.
  - erewrite IHt by eauto. simpl.
    clear -H H4 H2. revert ps params0 H H4 H2. induction params as [|b m IH]; intros [|a l] [|c k] F Q1 Q2; simpl in *; try discriminate; auto.
    pose proof (Forall_inv F) as Fa; pose proof (Forall_inv_tail F) as Fl. ands. rewrite (Fa b c) by auto. simpl. eauto.
Qed.

(** equal types are interchangeable for sizes and subscripts *)
Lemma ty_eqb_size szof comp : (forall a b n, szof (TStruct a n) = szof (TStruct b n)) ->
  forall t u, ty_eqb t u = true -> type_size szof comp t = type_size szof comp u.
Proof.
  intros Hs t. induction t using ty_rect'; intros [ | | | ? [|] | | | ]; simpl; try discriminate; auto; intros; ands; eqs; subst; auto.
  - erewrite IHt; eauto.
  - erewrite Hs; eauto.
Qed.
Lemma ty_eqb_prim t : forall u, ty_eqb t u = true -> primitive_type t = primitive_type u /\ is_symbol t = is_symbol u.
Proof.
  induction t using ty_rect'; intros [ | | | ? [|] | | | ]; simpl; try discriminate; auto; intros; ands; eqs; subst; auto.
  - split; auto. apply IHt; auto.
  - split; auto. apply IHt; auto.
  - split; auto. apply IHt; auto.
Qed.
Definition opt_eqb (a b : option ty) : Prop :=
  match a, b with Some t, Some u => ty_eqb t u = true | None, None => True | _, _ => False end.
Lemma opt_eqb_refl a : opt_eqb a a. Proof. destruct a; simpl; auto using ty_eqb_refl. Qed.
Lemma infer_in_eq defs fuel : forall t u sub, ty_eqb t u = true -> opt_eqb (infer_in fuel defs t sub) (infer_in fuel defs u sub).
Proof.
  induction fuel as [|fuel IH]; intros t u [|i sub] E; simpl; auto.
  destruct t as [ | | | ? [|] | | | ], u as [ | | | ? [|] | | | ]; simpl in E; try discriminate; auto; ands; eqs; subst; auto; try exact Logic.I.
  - match goal with |- context [defs ?x] => destruct (defs x) end; [|exact Logic.I]. destruct (is_vector l); [destruct l; apply opt_eqb_refl|].
    destruct i; try exact Logic.I. destruct (z <? 0); [exact Logic.I|]. destruct (nth_error l (Z.to_nat z)); apply opt_eqb_refl.
  - assert (forall a a' p, ty_eqb (TScalar a p) (TScalar a' p) = true) as Q1 by (intros; simpl; apply prim_eqb_eq; auto).
    assert (forall a a' p x y z, ty_eqb (TTensor a p x y z) (TTensor a' p x y z) = true) as Q2.
    { intros. simpl. rewrite (proj2 (prim_eqb_eq _ _) eq_refl), expr_eqb_refl', !(proj2 (exprs_eqb_eq _ _) eq_refl). auto. }
    destruct shape0 as [|d [|? ?]]; apply IH; auto.
Qed.
Lemma infer_type_eq defs t u sub : ty_eqb t u = true -> opt_eqb (infer_type defs t sub) (infer_type defs u sub).
Proof.
  intros E. unfold infer_type. destruct sub as [|i sub]; [exact E|].
  destruct t as [ | | | ? [|] | | | ], u as [ | | | ? [|] | | | ]; try discriminate; try exact Logic.I; try (apply infer_in_eq; exact E).
Qed.
(** every subscript consumes one level *)
Lemma infer_fuel defs : forall f t sub, (length sub <= f)%nat -> infer_in f defs t sub = infer_in (length sub) defs t sub.
Proof.
  induction f as [|f IH]; intros t sub L; destruct sub as [|i sub]; simpl in *; auto; try lia.
  destruct t as [ | | | ? [|] | | | ]; auto; try (apply IH; lia).
  - destruct (defs name); auto. destruct (is_vector l); [destruct l; auto; apply IH; lia|].
    destruct i; auto. destruct (z <? 0); auto. destruct (nth_error l (Z.to_nat z)); auto. apply IH; lia.
  - destruct shape as [|d [|? ?]]; apply IH; lia.
Qed.
Lemma infer_compose defs : forall s1 t s2 u, infer_type_internal defs t s1 = Some u ->
  infer_type_internal defs t (s1 ++ s2) = infer_type_internal defs u s2.
Proof.
  unfold infer_type_internal. induction s1 as [|i s1 IH]; intros t s2 u H; simpl in *; [injection H as <-; auto|].
  destruct t as [ | | | ? [|] | | | ]; try discriminate; try (apply IH; exact H).
  - destruct (defs name); [|discriminate]. destruct (is_vector l); [destruct l; [discriminate|]; apply IH; exact H|].
    destruct i; try discriminate. destruct (z <? 0); [discriminate|]. destruct (nth_error l (Z.to_nat z)); [|discriminate]. apply IH; exact H.
  - destruct shape as [|d [|? ?]]; apply IH; exact H.
Qed.

(* ---------------- sizes ---------------- *)
Lemma prim_size_ok p : match prim_size p with
  | Some (EInt z) => bit_width p <= 8 * z < bit_width p + 8 /\ 0 < z
  | None => p = Void
  | _ => False end.
Proof. destruct p; cbv -[Z.le Z.lt]; auto; lia. Qed.
Fixpoint dims_pos (s : env) (szof : ty -> expr) (t : ty) : Prop :=
  match t with
  | TArray _ e n => (exists z, eval s n = Some z /\ 0 < z) /\ dims_pos s szof e
  | TTensor _ _ sh _ _ => Forall (fun e => exists z, eval s e = Some z /\ 0 < z) sh
  | TStruct _ _ => exists z, eval s (szof t) = Some z /\ 0 < z
  | _ => True
  end.
Lemma evl_of_pos s l : Forall (fun e => exists z, eval s e = Some z /\ 0 < z) l -> exists zs, Forall2 (fun e z => eval s e = Some z) l zs /\ 0 < zprodr zs.
Proof.
  induction 1 as [|e l (z & H1 & H2) H (zs & H3 & H4)]; [exists []; split; [constructor|reflexivity]|].
  exists (z :: zs). split; [constructor; auto|]. unfold zprodr in *; simpl. nia.
Qed.
Lemma type_size_pos s szof comp t e : dims_pos s szof t -> type_size szof comp t = Some e -> exists v, eval s e = Some v /\ 0 < v.
Proof.
  revert e. induction t using ty_rect'; simpl; intros ex D H0; try (injection H0 as <-; exists 8; split; [reflexivity|lia]).
  - pose proof (prim_size_ok p) as Q. rewrite H0 in Q. destruct ex; try tauto. exists z. split; [reflexivity|lia].
  - destruct D as [(z & Hz & Pz) D]. destruct (type_size szof comp t) as [e'|] eqn:E; [|discriminate]. injection H0 as <-.
    destruct (IHt _ D eq_refl) as (v & Hv & Pv). exists (v * z). split; [apply eval_smul; auto|nia].
  - destruct comp; [|discriminate]. injection H0 as <-. auto.
  - pose proof (prim_size_ok p) as Q. destruct (prim_size p) as [ez|]; [|discriminate]. injection H0 as <-. destruct ez; try tauto.
    destruct (evl_of_pos s sh D) as (zs & H1 & H2). exists (z * zprodr zs). split; [apply eval_smul; [reflexivity|apply eval_prod_exprs; auto]|nia].
Qed.

(* ---------------- primitive types ---------------- *)
Lemma prim_roundtrip p : prim_from_string (prim_to_string p) = Some p.
Proof. destruct p; reflexivity. Qed.
Lemma prim_from_to e p : prim_from_string e = Some p -> prim_to_string p = e.
Proof.
  unfold prim_from_string. intros H.
  repeat match type of H with (if String.eqb e ?x then _ else _) = _ => destruct (String.eqb_spec e x); [injection H as <-; subst; reflexivity|] end.
  discriminate.
Qed.

(** The values a variable of an integer type can hold. *)
Definition representable (p : prim) (v : Z) : Prop :=
  match p with
  | Bool => 0 <= v <= 1
  | _ => if is_signed p then - 2 ^ (bit_width p - 1) <= v < 2 ^ (bit_width p - 1)
         else if is_unsigned p then 0 <= v < 2 ^ bit_width p else False
  end.
Lemma prim_assum_ok p a v : prim_assum p = Some a -> representable p v -> forall s,
  xle (ev s (lb_dep a)) (Fin v) /\ xle (Fin v) (ev s (ub_dep a)) /\
  (forall b, In b (lbs a) -> xle (ev s b) (Fin v)) /\ (forall b, In b (ubs a) -> xle (Fin v) (ev s b)).
Proof.
  assert (2 ^ 7 = 128 /\ 2 ^ 8 = 256 /\ 2 ^ 15 = 32768 /\ 2 ^ 16 = 65536 /\ 2 ^ 31 = 2147483648 /\ 2 ^ 32 = 4294967296 /\ 2 ^ 63 = 9223372036854775808) as (E1 & E2 & E3 & E4 & E5 & E6 & E7) by (repeat split).
  intros H R s. assert (exists lo hi, a = assum_range lo hi /\ xle (ev s lo) (Fin v) /\ xle (Fin v) (ev s hi)) as (lo & hi & -> & H1 & H2).
  { destruct p; try discriminate; injection H as <-; eexists _, _; (split; [reflexivity|]); cbn [representable is_signed is_unsigned bit_width] in R;
      rewrite ?E1, ?E2, ?E3, ?E4, ?E5, ?E6, ?E7 in R; cbn [Z.sub Z.add Z.opp Z.pos_sub Pos.pred_double Pos.add Pos.succ] in R;
      rewrite ?E1, ?E2, ?E3, ?E4, ?E5, ?E6, ?E7 in R; cbn [ev xle]; split; auto; lia. }
  repeat split; auto; simpl; intros b [<-|[]]; auto.
Qed.
