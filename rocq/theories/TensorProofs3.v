(** Reductions. *)
From Coq Require Import FinFun Permutation.
From Verif Require Import Tensor TensorProofs TensorProofs2 SymFacts SymProofs1.
Open Scope string_scope.
Open Scope Z_scope.
Import ListNotations.

Fixpoint mrg (fl : list bool) (o k : list Z) : list Z :=
  match fl with
  | [] => []
  | true :: fl' => match k with b :: k' => b :: mrg fl' o k' | [] => [] end
  | false :: fl' => match o with a :: o' => a :: mrg fl' o' k | [] => [] end
  end.
Definition unshuf (fl : list bool) (n : nat) (l : list Z) : list Z := mrg fl (firstn n l) (skipn n l).

Lemma pick_len {A B} b : forall fl (l : list A) (m : list B), List.length l = List.length m ->
  List.length (pick b fl l) = List.length (pick b fl m).
Proof.
  induction fl as [|c fl IH]; intros [|a l] [|e m] H; cbn in *; try discriminate; auto.
  destruct (Bool.eqb b c); cbn; auto.
Qed.
Lemma pick_In {A} b : forall fl (l : list A) a, In a (pick b fl l) -> In a l.
Proof.
  induction fl as [|c fl IH]; intros [|x l] a H; cbn in *; try tauto.
  destruct (Bool.eqb b c); [destruct H as [->|H]|]; auto.
Qed.
Lemma pick_NoDup {A} : forall fl (l : list A), NoDup l -> NoDup (pick false fl l ++ pick true fl l).
Proof.
  induction fl as [|c fl IH]; intros [|x l] H; cbn; try constructor.
  inversion H as [|? ? Hx Hl]; subst. destruct c; cbn.
  - apply NoDup_Add with (a := x) (l := (pick false fl l ++ pick true fl l)%list).
    + apply Add_app.
    + split; auto. rewrite in_app_iff. intros [K|K]; apply pick_In in K; auto.
  - constructor; auto. rewrite in_app_iff. intros [K|K]; apply pick_In in K; auto.
Qed.
Lemma evals_pick s b : forall fl l v, evals s l = Some v -> evals s (pick b fl l) = Some (pick b fl v).
Proof.
  induction fl as [|c fl IH]; intros [|e l] v H; cbn in *.
  - injection H as <-; auto.
  - destruct v; auto.
  - injection H as <-; auto.
  - destruct (eval s e) eqn:Ee; [|discriminate]. destruct (evals s l) eqn:El; [|discriminate]. injection H as <-.
    cbn. specialize (IH l _ El). destruct (Bool.eqb b c); cbn; rewrite ?Ee, IH; auto.
Qed.
Lemma evals_keep s e1 z1 kd : eval s e1 = Some z1 -> forall fl l v, evals s l = Some v ->
  evals s (keep e1 kd fl l) = Some (keep z1 kd fl v).
Proof.
  intros He. induction fl as [|c fl IH]; intros [|e l] v H; cbn in *.
  - injection H as <-; auto.
  - auto.
  - injection H as <-; destruct c; auto.
  - destruct (eval s e) eqn:Ee; [|discriminate]. destruct (evals s l) eqn:El; [|discriminate]. injection H as <-.
    specialize (IH l _ El). destruct c; [destruct kd|]; cbn; rewrite ?He, ?Ee, IH; auto.
Qed.
Lemma keep_len {A B} (a : A) (b : B) kd : forall fl l m, List.length l = List.length m ->
  List.length (keep a kd fl l) = List.length (keep b kd fl m).
Proof.
  induction fl as [|c fl IH]; intros [|x l] [|e m] H; cbn in *; try discriminate; auto.
  - destruct c; auto.
  - destruct c; [destruct kd|]; cbn; auto.
Qed.
Lemma Forall2_mrg {A} (R : A -> Z -> Prop) : forall fl (vs : list A) o k, List.length fl = List.length vs ->
  Forall2 R (pick false fl vs) o -> Forall2 R (pick true fl vs) k -> Forall2 R vs (mrg fl o k).
Proof.
  induction fl as [|c fl IH]; intros [|x vs] o k H Ho Hk; cbn in *; try discriminate; [constructor|].
  destruct c; cbn in *.
  - inversion Hk; subst. constructor; auto.
  - inversion Ho; subst. constructor; auto.
Qed.
Lemma box_app a b : box (a ++ b) = flat_map (fun o => map (app o) (box b)) (box a).
Proof.
  induction a as [|d a IH]; cbn [app box].
  - cbn. rewrite app_nil_r. symmetry. apply map_id.
  - rewrite IH. generalize (zrange d) as z. induction z as [|v z IHz]; [auto|]. cbn [flat_map].
    rewrite flat_map_app, IHz. f_equal. clear. generalize (box a) as L. induction L as [|o L IHL]; [auto|].
    cbn. rewrite map_app, map_map, IHL. auto.
Qed.
Lemma keep_box kd : forall fl dims j, Forall2 (fun d v => 0 <= v < d) dims j ->
  Forall2 (fun d v => 0 <= v < d) (keep 1 kd fl dims) (keep 0 kd fl j).
Proof.
  induction fl as [|c fl IH]; intros dims j H.
  - destruct H; constructor.
  - destruct H as [|d v dims j Hv H]; cbn; [destruct c; constructor|].
    destruct c; [destruct kd|]; auto; constructor; auto; lia.
Qed.

(** Selecting one row of a flat_map. *)
Lemma flat_select {A B} (f : A -> list B) (x : A) l : NoDup l -> In x l ->
  (forall y, In y l -> y <> x -> f y = []) -> flat_map f l = f x.
Proof.
  intros N. induction N as [|a l Ha N IH]; intros Hin H; [destruct Hin|]. cbn.
  destruct Hin as [->|Hin].
  - replace (flat_map f l) with (@nil B); [apply app_nil_r|]. symmetry.
    assert (K : forall y, In y l -> f y = []).
    { intros y Hy. apply H; [right; auto|]. intros ->. auto. }
    clear -K. induction l as [|b l IH]; [auto|]. cbn. rewrite (K b (or_introl eq_refl)). apply IH. intros y Hy. apply K. right; auto.
  - rewrite (H a (or_introl eq_refl)), IH; auto.
    + intros y Hy. apply H. right; auto.
    + intros ->. auto.
Qed.
Lemma filter_none {A} (p : A -> bool) l : (forall x, In x l -> p x = false) -> filter p l = [].
Proof.
  induction l as [|a l IH]; intros H; [auto|]. cbn. rewrite (H a (or_introl eq_refl)). apply IH. intros x Hx. apply H. right; auto.
Qed.
Lemma filter_all {A} (p : A -> bool) l : (forall x, In x l -> p x = true) -> filter p l = l.
Proof.
  induction l as [|a l IH]; intros H; [auto|]. cbn. rewrite (H a (or_introl eq_refl)). f_equal. apply IH. intros x Hx. apply H. right; auto.
Qed.
Lemma filter_map {A B} (p : B -> bool) (f : A -> B) l : filter p (map f l) = map f (filter (fun x => p (f x)) l).
Proof. induction l as [|a l IH]; [auto|]. cbn. destruct (p (f a)); cbn; rewrite IH; auto. Qed.
Lemma filter_flat {A B} (p : B -> bool) (f : A -> list B) l : filter p (flat_map f l) = flat_map (fun x => filter p (f x)) l.
Proof. induction l as [|a l IH]; [auto|]. cbn. rewrite filter_app, IH. auto. Qed.
Lemma map_flat {A B C} (g : B -> C) (f : A -> list B) l : map g (flat_map f l) = flat_map (fun x => map g (f x)) l.
Proof. induction l as [|a l IH]; [auto|]. cbn. rewrite map_app, IH. auto. Qed.
Lemma flat_map_ext' {A B} (f g : A -> list B) l : (forall x, f x = g x) -> flat_map f l = flat_map g l.
Proof. intros H. induction l as [|a l IH]; [auto|]. cbn. rewrite H, IH. auto. Qed.
Lemma idx_eqb_refl j : idx_eqb j j = true. Proof. apply idx_eqb_eq. auto. Qed.
Lemma idx_neqb i j : i <> j -> idx_eqb i j = false.
Proof. destruct (idx_eqb i j) eqn:E; auto. apply idx_eqb_eq in E. congruence. Qed.

Lemma rows_of fl : forall dims o, List.length fl = List.length dims -> In o (box (pick false fl dims)) ->
  filter (fun j => idx_eqb (pick false fl j) o) (box dims) = map (mrg fl o) (box (pick true fl dims)).
Proof.
  induction fl as [|c fl IH]; intros [|d dims] o HL Ho; cbn in HL; try discriminate.
  - cbn in Ho. destruct Ho as [<-|[]]. cbn. auto.
  - injection HL as HL. cbn [box]. rewrite filter_flat. destruct c; cbn [pick Bool.eqb] in *.
    + cbn [box]. rewrite map_flat. apply flat_map_ext'. intros v. rewrite filter_map, map_map. cbn [mrg].
      rewrite <- (map_map (mrg fl o) (cons v)). rewrite <- IH by auto. reflexivity.
    + cbn [box] in Ho. apply in_flat_map in Ho as (a & Ha & Ho). apply in_map_iff in Ho as (o' & <- & Ho).
      rewrite (flat_select _ a).
      * rewrite filter_map. cbn [mrg]. rewrite <- (map_map (mrg fl o') (cons a)), <- IH by auto.
        f_equal. apply filter_ext. intros j. cbn. rewrite Z.eqb_refl. auto.
      * apply zrange_NoDup.
      * auto.
      * intros v Hv Hva. rewrite filter_map. rewrite filter_none; auto. intros j _. cbn.
        replace (v =? a) with false; auto. symmetry. apply Z.eqb_neq. auto.
Qed.
Lemma pick_mrg fl : forall (dims : list Z) o k, List.length fl = List.length dims ->
  List.length o = List.length (pick false fl dims) -> List.length k = List.length (pick true fl dims) ->
  pick false fl (mrg fl o k) = o.
Proof.
  induction fl as [|c fl IH]; intros [|d dims] o k H Ho Hk; cbn in *; try discriminate.
  - destruct o; auto; discriminate.
  - injection H as H. destruct c; cbn in *.
    + destruct k as [|b k]; [discriminate|]. cbn. apply IH with (dims := dims); auto.
    + destruct o as [|a o]; [discriminate|]. cbn. rewrite (IH dims); auto.
Qed.
Lemma rows_shuf fl dims o : List.length fl = List.length dims -> In o (box (pick false fl dims)) ->
  filter (fun j => idx_eqb (pick false fl j) o)
    (map (unshuf fl (List.length (pick false fl dims))) (box (pick false fl dims ++ pick true fl dims))) =
  map (mrg fl o) (box (pick true fl dims)).
Proof.
  intros HL Ho. rewrite box_app, map_flat, filter_flat.
  assert (E : forall p k, In p (box (pick false fl dims)) ->
    unshuf fl (List.length (pick false fl dims)) (p ++ k) = mrg fl p k).
  { intros p k Hp. apply box_length in Hp. unfold unshuf. rewrite <- Hp.
    rewrite firstn_app, skipn_app, Nat.sub_diag, firstn_all, skipn_all. cbn. rewrite app_nil_r. auto. }
  rewrite (flat_select _ o); [| apply box_NoDup | auto |].
  - rewrite map_map. rewrite filter_all.
    + apply map_ext. intros k. apply E; auto.
    + intros j Hj. apply in_map_iff in Hj as (k & <- & Hk). rewrite E by auto.
      rewrite (pick_mrg fl dims); auto using box_length. apply idx_eqb_refl.
  - intros p Hp Hne. rewrite map_map. apply filter_none. intros j Hj. apply in_map_iff in Hj as (k & <- & Hk).
    rewrite E by auto. rewrite (pick_mrg fl dims); auto using box_length. apply idx_neqb; auto.
Qed.

(** with keepdims the output index has a 0 at every reduced dimension *)
Definition core (kd : bool) (fl : list bool) (o : list Z) : list Z := if kd then pick false fl o else o.
Lemma keep_core kd : forall fl dims o j, List.length fl = List.length dims ->
  Forall2 (fun d v => 0 <= v < d) (keep 1 kd fl dims) o -> List.length j = List.length fl ->
  (keep 0 kd fl j = o <-> pick false fl j = core kd fl o).
Proof.
  induction fl as [|c fl IH]; intros [|d dims] o j H Ho Hj; cbn in *; try discriminate.
  - destruct j; [|discriminate]. inversion Ho; subst. unfold core. destruct kd; tauto.
  - destruct j as [|v j]; [discriminate|]. injection H as H. injection Hj as Hj. destruct c; cbn in *.
    + destruct kd.
      * inversion Ho as [|? w ? o' Hw Ho']; subst. unfold core in *. cbn. rewrite <- (IH dims o' j); auto.
        split; [intros E; injection E; auto|]. intros ->. f_equal. lia.
      * unfold core in *. rewrite (IH dims o j); auto. tauto.
    + inversion Ho as [|? w ? o' Hw Ho']; subst. specialize (IH dims o' j H Ho' Hj). unfold core in *. destruct kd; cbn.
      * split; intros E; injection E as -> E; f_equal; apply IH; auto.
      * split; intros E; injection E as -> E; f_equal; apply IH; auto.
Qed.
Lemma core_box kd : forall fl dims o, List.length fl = List.length dims ->
  Forall2 (fun d v => 0 <= v < d) (keep 1 kd fl dims) o -> Forall2 (fun d v => 0 <= v < d) (pick false fl dims) (core kd fl o).
Proof.
  induction fl as [|c fl IH]; intros [|d dims] o H Ho; cbn in *; try discriminate.
  - unfold core. destruct kd; [constructor|auto].
  - injection H as H. unfold core in *. destruct c; cbn in *.
    + destruct kd; [inversion Ho; subst; cbn|]; auto.
    + inversion Ho; subst. destruct kd; cbn; constructor; auto.
Qed.

Lemma rows_eq kd fl dims o : List.length fl = List.length dims -> In o (box (keep 1 kd fl dims)) ->
  filter (fun j => idx_eqb (keep 0 kd fl j) o)
    (map (unshuf fl (List.length (pick false fl dims))) (box (pick false fl dims ++ pick true fl dims))) =
  filter (fun j => idx_eqb (keep 0 kd fl j) o) (box dims).
Proof.
  intros HL Ho. apply box_In in Ho.
  assert (P : forall j, List.length j = List.length fl ->
    idx_eqb (keep 0 kd fl j) o = idx_eqb (pick false fl j) (core kd fl o)).
  { intros j Hj. pose proof (keep_core kd fl dims o j HL Ho Hj) as K.
    destruct (idx_eqb (keep 0 kd fl j) o) eqn:E1, (idx_eqb (pick false fl j) (core kd fl o)) eqn:E2; auto; exfalso.
    - apply idx_eqb_eq in E1. apply K, idx_eqb_eq in E1. congruence.
    - apply idx_eqb_eq in E2. apply K, idx_eqb_eq in E2. congruence. }
  assert (Hc : In (core kd fl o) (box (pick false fl dims))) by (apply box_In, core_box; auto).
  rewrite (filter_ext_in _ (fun j => idx_eqb (pick false fl j) (core kd fl o))).
  - rewrite (filter_ext_in (fun j => idx_eqb (keep 0 kd fl j) o) (fun j => idx_eqb (pick false fl j) (core kd fl o)) (box dims)).
    + rewrite rows_shuf, rows_of; auto.
    + intros j Hj. apply P. rewrite (box_length _ _ Hj). auto.
  - intros j Hj. apply P. apply in_map_iff in Hj as (q & <- & Hq).
    rewrite box_app in Hq. apply in_flat_map in Hq as (p & Hp & Hq). apply in_map_iff in Hq as (k & <- & Hk).
    pose proof (box_length _ _ Hp) as Lp. unfold unshuf. rewrite <- Lp.
    rewrite firstn_app, skipn_app, Nat.sub_diag, firstn_all, skipn_all. cbn. rewrite app_nil_r.
    apply box_In in Hp, Hk. pose proof (Forall2_mrg _ _ _ _ _ HL Hp Hk) as F.
    rewrite HL. clear -F. induction F; cbn; auto.
Qed.

(** What a reduction computes at output index [o]: the row-major fold over the
    input indices that project to [o]. *)
Definition reduced (g : Z -> Z -> Z) (ident : Z) (kd : bool) (fl : list bool) (dims : list Z) (a : list Z -> Z) (o : list Z) : Z :=
  fold_left (fun acc j => g (a j) acc) (filter (fun j => idx_eqb (keep 0 kd fl j) o) (box dims)) ident.

Lemma Forall2_app_l {A B} (R : A -> B -> Prop) l1 l2 m : Forall2 R (l1 ++ l2) m ->
  Forall2 R l1 (firstn (List.length l1) m) /\ Forall2 R l2 (skipn (List.length l1) m).
Proof.
  revert m. induction l1 as [|a l1 IH]; intros m H; cbn in *; [split; [constructor|auto]|].
  inversion H as [|? b ? m' Hb Hm]; subst. cbn. destruct (IH _ Hm). split; auto.
Qed.

Definition out_in (dims : list Z) (o : list Z) : Prop := Forall2 (fun d v => 0 <= v < d) dims o.

Lemma fold_nest_run I code g kd fl x y shape vs dims ident hid st1 :
  (forall a b, I code [a; b] = Some (g a b)) ->
  List.length fl = List.length shape -> List.length vs = List.length shape -> NoDup vs -> incl vs hid ->
  ~ In y hid -> ~ In x hid -> x <> y ->
  (forall e z, In e shape -> In z (atoms e) -> z <> y /\ ~ In z hid) ->
  evals (env_of st1) shape = Some dims ->
  (forall o, out_in (keep 1 kd fl dims) o -> st1 y o = ident) ->
  exists st', runs I (nest (maps (pick false fl vs) (pick false fl shape) ++ fors (pick true fl vs) (pick true fl shape))
      (single [{| o_code := code; o_ins := [ORead x (syms vs); ORead y (keep (EInt 0) kd fl (syms vs))];
                  o_out := y; o_sub := keep (EInt 0) kd fl (syms vs) |}])) st1 ONorm st' /\
    (forall o, out_in (keep 1 kd fl dims) o -> st' y o = reduced g ident kd fl dims (fun j => st1 x j) o) /\
    (forall z k, ~ In z hid -> (z <> y \/ ~ out_in (keep 1 kd fl dims) k) -> st' z k = st1 z k).
Proof.
  intros HI HLf HLv Hnd Hinc Hy Hx Hxy Ha Hd Hid.
  assert (HLd : List.length dims = List.length shape) by (eapply evals_length; eauto).
  set (l := (maps (pick false fl vs) (pick false fl shape) ++ fors (pick true fl vs) (pick true fl shape))%list).
  set (nf := List.length (pick false fl dims)).
  assert (Hl : map lvar l = (pick false fl vs ++ pick true fl vs)%list).
  { unfold l. rewrite map_app, maps_lvar, fors_lvar; auto; apply pick_len; auto. }
  assert (Hvl : forall v, In v (map lvar l) -> In v vs).
  { intros v Hv. rewrite Hl in Hv. apply in_app_iff in Hv as [Hv|Hv]; apply pick_In in Hv; auto. }
  set (Q := fun (done : list (list Z)) (st : store) =>
    (forall o, out_in (keep 1 kd fl dims) o ->
       st y o = fold_left (fun acc j => g (st1 x j) acc)
                  (filter (fun j => idx_eqb (keep 0 kd fl j) o) (map (unshuf fl nf) done)) ident) /\
    (forall z k, ~ In z hid -> (z <> y \/ ~ out_in (keep 1 kd fl dims) k) -> st z k = st1 z k)).
  destruct (nest_run I (single [{| o_code := code; o_ins := [ORead x (syms vs); ORead y (keep (EInt 0) kd fl (syms vs))];
                  o_out := y; o_sub := keep (EInt 0) kd fl (syms vs) |}]) l (pick false fl dims ++ pick true fl dims) Q st1) as (st' & R & HQ).
  - rewrite Hl. apply pick_NoDup; auto.
  - intros done st v z Hv [H1 H2]. apply Hvl, Hinc in Hv. split.
    + intros o Ho. rewrite wr_other; auto. left. intros ->. auto.
    + intros w k Hw K. rewrite wr_other; auto. left. intros ->. auto.
  - intros done st [H1 H2].
    assert (Es : evals (env_of st) shape = Some dims).
    { rewrite <- Hd. apply evals_eqx with (D := fun z => z = y \/ In z hid).
      - intros z Hz k. apply H2; [intros K; apply Hz; auto|]. left. intros ->. apply Hz; auto.
      - intros z Hz K. apply in_concat in Hz as (at' & Hat & Hz). apply in_map_iff in Hat as (e & <- & He).
        destruct (Ha e z He Hz) as [A B]. destruct K; auto. }
    unfold l. apply Forall2_app.
    + apply maps_bounds; [apply pick_len; auto|apply evals_pick; auto].
    + apply fors_bounds; [apply pick_len; auto|apply evals_pick; auto].
  - intros done idx rest st Hbox HQ Hv. rewrite Hl in Hv.
    destruct (Forall2_app_l _ _ _ _ Hv) as [Fo Fk].
    assert (Enf : List.length (pick false fl vs) = nf) by (apply pick_len; congruence).
    rewrite Enf in Fo, Fk.
    assert (Fj : Forall2 (fun v z => st v [] = z) vs (unshuf fl nf idx)).
    { apply Forall2_mrg; auto. congruence. }
    set (j := unshuf fl nf idx) in *.
    assert (Hj : out_in dims j).
    { assert (Hin : In idx (box (pick false fl dims ++ pick true fl dims))).
      { rewrite Hbox. apply in_or_app. right. left. auto. }
      rewrite box_app in Hin. apply in_flat_map in Hin as (p & Hp & Hq). apply in_map_iff in Hq as (k & E & Hk).
      unfold j, unshuf. rewrite <- E. pose proof (box_length _ _ Hp) as Lp. unfold nf. rewrite <- Lp.
      rewrite firstn_app, skipn_app, Nat.sub_diag, firstn_all, skipn_all. cbn. rewrite app_nil_r.
      apply box_In in Hp, Hk. apply Forall2_mrg; auto. congruence. }
    destruct HQ as [H1 H2].
    assert (Ev := evals_syms _ _ _ Fj).
    assert (Ek := evals_keep (env_of st) (EInt 0) 0 kd eq_refl fl _ _ Ev).
    assert (Hkj := keep_box kd fl dims j Hj).
    set (new := g (st1 x j) (st y (keep 0 kd fl j))).
    exists (wr st y (keep 0 kd fl j) new). split; [|split; [split|]].
    + apply R_cons with (st1 := wr st y (keep 0 kd fl j) new) (st2 := wr st y (keep 0 kd fl j) new); [|reflexivity|apply R_nil].
      apply R_block. cbn [exec_block]. unfold exec_op. cbn [o_ins o_code o_sub o_out reads_in read_in].
      rewrite Ev, Ek, HI. unfold new. rewrite (H2 x j); auto.
    + intros o Ho. rewrite map_app, filter_app, fold_left_app. cbn [map filter]. fold j.
      destruct (idx_eqb (keep 0 kd fl j) o) eqn:Eo; cbn [fold_left].
      * apply idx_eqb_eq in Eo. subst o. rewrite wr_same. unfold new. rewrite (H1 _ Hkj). auto.
      * rewrite wr_other; auto. right. intros E. rewrite E, idx_eqb_refl in Eo. discriminate.
    + intros z k Hz K. rewrite wr_other; auto. destruct K as [K|K]; [left; auto|].
      right. intros <-. auto.
    + intros v Hv'. apply wr_other. left. intros ->. apply Hy, Hinc, Hvl. auto.
  - split; [|auto]. intros o Ho. cbn. apply Hid; auto.
  - exists st'. split; [auto|]. destruct HQ as [H1 H2]. split; [|auto].
    intros o Ho. rewrite H1 by auto. unfold reduced. f_equal. apply rows_eq; [congruence|]. apply box_In. auto.
Qed.

Lemma runs_sapp I a b st st1 o st2 : runs I a st ONorm st1 -> runs I b st1 o st2 -> runs I (sapp a b) st o st2.
Proof.
  revert st. induction a as [|n asg r IH]; intros st Ha Hb.
  - inversion Ha; subst. auto.
  - inversion Ha as [|? ? ? ? s1 s2 ? ? Hn He Hr|]; subst; [|congruence].
    cbn. apply R_cons with (st1 := s1) (st2 := s2); auto.
Qed.

Lemma reduce_run I code g ident fl kd x y shape vs ws dims st0 :
  (forall v, I 0%nat [v] = Some v) -> (forall a b, I code [a; b] = Some (g a b)) ->
  List.length fl = List.length shape ->
  List.length vs = List.length shape -> NoDup vs ->
  List.length ws = List.length (keep (EInt 1) kd fl shape) -> NoDup ws ->
  ~ In y (vs ++ ws) -> ~ In x (vs ++ ws) -> x <> y ->
  (forall e z, In e shape -> In z (atoms e) -> z <> y /\ ~ In z (vs ++ ws)) ->
  evals (env_of st0) shape = Some dims ->
  exists st', run I (expand_reduce code ident fl kd x y shape vs ws) st0 ONorm st' /\
    (forall o, out_in (keep 1 kd fl dims) o -> st' y o = reduced g ident kd fl dims (fun j => st0 x j) o) /\
    (forall z k, ~ In z (vs ++ ws) -> (z <> y \/ ~ out_in (keep 1 kd fl dims) k) -> st' z k = st0 z k).
Proof.
  intros H0 HI HLf HLv Hnd HLw Hndw Hy Hx Hxy Ha Hd.
  assert (Hks : forall e z, In e (keep (EInt 1) kd fl shape) -> In z (atoms e) -> z <> y /\ ~ In z (vs ++ ws)).
  { assert (K : forall fl l e, In e (keep (EInt 1) kd fl l) -> e = EInt 1 \/ In e l).
    { clear. induction fl as [|c fl IH]; intros [|a l] e H; cbn in *; try tauto.
      - destruct c; tauto.
      - destruct c; [destruct kd|]; cbn in H.
        + destruct H as [<-|H]; auto. destruct (IH _ _ H); auto.
        + destruct (IH _ _ H); auto.
        + destruct H as [<-|H]; auto. destruct (IH _ _ H); auto. }
    intros e z He Hz. destruct (K _ _ _ He) as [->|He']; [destruct Hz|]. apply (Ha e z); auto. }
  assert (Hkd := evals_keep (env_of st0) (EInt 1) 1 kd eq_refl fl _ _ Hd).
  destruct (scatter I [{| o_code := 0; o_ins := [OConst ident]; o_out := y; o_sub := syms ws |}]
      (maps ws (keep (EInt 1) kd fl shape)) (keep 1 kd fl dims) (vs ++ ws) y (fun j => j) (fun _ => ident) st0) as (s1 & R1 & S1 & S2).
  - rewrite maps_lvar; auto.
  - rewrite maps_lvar; auto. apply incl_appr, incl_refl.
  - auto.
  - apply maps_bounds; auto.
  - intros e z He Hz. apply maps_shape in He. apply (Hks (lbound e)); auto.
  - auto.
  - intros done idx rest st Hbox HQ Hv. rewrite maps_lvar in * by auto.
    exists (wr st y idx ident). split; [|split; [|split]].
    + cbn [exec_block]. unfold exec_op. cbn [o_ins o_code o_sub o_out reads_in read_in].
      rewrite (evals_syms _ _ _ Hv), H0. auto.
    + apply wr_same.
    + intros z k _ K. apply wr_other. destruct K as [K|K]; [left|right]; auto.
    + intros v Hv'. apply wr_other. left. intros ->. apply Hy. apply in_or_app; auto.
  - assert (Hd1 : evals (env_of s1) shape = Some dims).
    { rewrite <- Hd. apply evals_eqx with (D := fun z => z = y \/ In z (vs ++ ws)).
      - intros z Hz k. apply S2; [intros K; apply Hz; auto|]. left. intros ->. apply Hz; auto.
      - intros z Hz K. apply in_concat in Hz as (at' & Hat & Hz). apply in_map_iff in Hat as (e & <- & He).
        destruct (Ha e z He Hz) as [A B]. destruct K; auto. }
    destruct (fold_nest_run I code g kd fl x y shape vs dims ident (vs ++ ws) s1) as (s2 & R2 & V2 & F2); auto.
    + apply incl_appl, incl_refl.
    + intros o Ho. apply S1. apply box_In. auto.
    + exists s2. split; [|split].
      * apply R_seq. eapply runs_sapp; eauto.
      * intros o Ho. rewrite V2 by auto. unfold reduced.
        assert (E : forall l a, fold_left (fun acc j => g (s1 x j) acc) l a = fold_left (fun acc j => g (st0 x j) acc) l a).
        { induction l as [|j l IH]; intros a; [auto|]. cbn. rewrite (S2 x j); auto. }
        apply E.
      * intros z k Hz K. rewrite F2 by auto. apply S2; auto. destruct K as [K|K]; [auto|].
        right. intros j Hj E. apply K. subst j. apply box_In in Hj. auto.
Qed.
