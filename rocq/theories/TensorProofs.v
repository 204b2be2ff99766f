(** Loop nests visit a box of indices in row-major order. *)
From Coq Require Import FinFun.
From Verif Require Import Tensor SymFacts SymProofs1.
Open Scope string_scope.
Open Scope Z_scope.
Import ListNotations.

Lemma zrange_In d v : In v (zrange d) <-> 0 <= v < d.
Proof.
  unfold zrange. rewrite in_map_iff. split.
  - intros (n & <- & H). apply in_seq in H. lia.
  - intros H. exists (Z.to_nat v). split; [lia|]. apply in_seq. lia.
Qed.
Lemma zrange_NoDup d : NoDup (zrange d).
Proof. unfold zrange. apply Injective_map_NoDup; [intros a b; lia|apply seq_NoDup]. Qed.

Lemma box_In dims : forall j, In j (box dims) <-> Forall2 (fun d v => 0 <= v < d) dims j.
Proof.
  induction dims as [|d r IH]; intros j; cbn [box].
  - split; [intros [<-|[]]; constructor|]. intros H; inversion H; left; auto.
  - rewrite in_flat_map. split.
    + intros (v & Hv & H). apply in_map_iff in H as (k & <- & Hk). apply zrange_In in Hv.
      constructor; [auto|apply IH; auto].
    + intros H. inversion H as [|? v ? k Hv Hk]; subst. exists v. split; [apply zrange_In; auto|].
      apply in_map, IH, Hk.
Qed.
Lemma box_length dims j : In j (box dims) -> List.length j = List.length dims.
Proof. intros H. apply box_In in H. induction H; cbn; auto. Qed.

Lemma NoDup_app_intro {A} (l m : list A) : NoDup l -> NoDup m -> (forall x, In x l -> ~ In x m) -> NoDup (l ++ m).
Proof.
  intros Hl Hm H. induction Hl as [|x l Hx Hl IH]; [auto|]. cbn. constructor.
  - rewrite in_app_iff. intros [K|K]; [auto|]. exact (H x (or_introl eq_refl) K).
  - apply IH. intros y Hy. apply H. right; auto.
Qed.
Lemma NoDup_flat {A B} (f : A -> list B) l : NoDup l -> (forall x, NoDup (f x)) ->
  (forall x y b, In b (f x) -> In b (f y) -> x = y) -> NoDup (flat_map f l).
Proof.
  intros Hl Hf Hd. induction Hl as [|x l Hx Hl IH]; cbn; [constructor|].
  apply NoDup_app_intro; auto. intros b Hb K. apply in_flat_map in K as (y & Hy & Hb').
  rewrite (Hd x y b Hb Hb') in Hx. auto.
Qed.
Lemma box_NoDup dims : NoDup (box dims).
Proof.
  induction dims as [|d r IH]; cbn; [repeat constructor; intros []|].
  apply NoDup_flat; [apply zrange_NoDup| |].
  - intros v. apply Injective_map_NoDup; auto. intros a b; congruence.
  - intros v w b H K. apply in_map_iff in H as (k & <- & _). apply in_map_iff in K as (k' & E & _). congruence.
Qed.

Lemma cev_lt st i n d : eval (env_of st) n = Some d -> cev (env_of st) (CLt (ESym i) n) = Some (st i [] <? d).
Proof.
  intros Hn. apply eval_ev in Hn. cbn [cev]. rewrite Hn. cbn. unfold env_of. apply f_equal.
  destruct (Z.leb_spec d (st i [])), (Z.ltb_spec (st i []) d); cbn; lia || auto.
Qed.

Section Nest.
  Variable I : nat -> list Z -> option Z.
  Variable body : seq.
  Variable total : list (list Z).
  Variable Q : list (list Z) -> store -> Prop.
  Variable vars : list string.
  Hypothesis Q_loop : forall done st v z, In v vars -> Q done st -> Q done (wr st v [] z).
  Hypothesis step : forall done idx rest st,
    total = (done ++ idx :: rest)%list -> Q done st ->
    Forall2 (fun v z => st v [] = z) vars idx ->
    exists st', runs I body st ONorm st' /\ Q (done ++ [idx]) st' /\ (forall v, In v vars -> st' v [] = st v []).

  Lemma Forall2_stable (pv : list string) (p : list Z) (st st' : store) : Forall2 (fun v z => st v [] = z) pv p ->
    (forall v, In v pv -> st' v [] = st v []) -> Forall2 (fun v z => st' v [] = z) pv p.
  Proof.
    intros H. induction H as [|v z pv p Hv H IH]; intros K; constructor.
    - rewrite (K v (or_introl eq_refl)); auto.
    - apply IH. intros w Hw. apply K. right; auto.
  Qed.

  Lemma nest_inv : forall l dims pv p done rest st,
    vars = (pv ++ map lvar l)%list -> NoDup vars ->
    (forall done st, Q done st -> Forall2 (fun e d => eval (env_of st) (lbound e) = Some d) l dims) ->
    total = (done ++ map (app p) (box dims) ++ rest)%list ->
    Q done st -> Forall2 (fun v z => st v [] = z) pv p ->
    exists st', runs I (nest l body) st ONorm st' /\ Q (done ++ map (app p) (box dims)) st' /\
      (forall v, In v pv -> st' v [] = st v []).
  Proof.
    induction l as [|[[k i] n] l IH]; intros dims pv p done rest st Hv Hnd Hd Ht HQ Hp.
    - pose proof (Hd done st HQ) as Hdd. inversion Hdd; subst dims. cbn [nest box map] in *.
      rewrite app_nil_r in *. subst pv.
      destruct (step done p rest st Ht HQ Hp) as (st' & R & Q' & K).
      exists st'. repeat split; auto.
    - pose proof (Hd done st HQ) as Hdd. inversion Hdd as [|e d ? ds Hn Hds E1 E2]; subst dims. clear Hdd.
      cbn [nest]. cbn [lbound snd] in Hn.
      set (rows := fun w => map (app p) (map (cons w) (box ds))).
      assert (Erow : forall w, rows w = map (app (p ++ [w])) (box ds)).
      { intros w. unfold rows. rewrite map_map. apply map_ext. intros q. rewrite <- app_assoc. auto. }
      assert (Ebox : map (app p) (box (d :: ds)) = flat_map rows (zrange d)).
      { cbn [box]. unfold rows. generalize (zrange d) as z. intros z.
        induction z as [|w z IHz]; cbn; auto. rewrite map_app, IHz. auto. }
      rewrite Ebox in *.
      assert (Hiv : In i vars) by (rewrite Hv; apply in_or_app; right; left; auto).
      assert (Hipv : ~ In i pv).
      { intros Hin. rewrite Hv in Hnd. cbn [map lvar fst snd] in Hnd.
        apply NoDup_remove_2 in Hnd. apply Hnd. apply in_or_app; auto. }
      assert (Loop : forall m v done st,
        (v + m = Z.to_nat d)%nat -> Q done st -> st i [] = Z.of_nat v ->
        total = (done ++ flat_map rows (map Z.of_nat (List.seq v m)) ++ rest)%list ->
        Forall2 (fun v z => st v [] = z) pv p ->
        exists st', runl I i (CLt (ESym i) n) (sadd (ESym i) (EInt 1)) (nest l body) st ONorm st' /\
          Q (done ++ flat_map rows (map Z.of_nat (List.seq v m))) st' /\ (forall v, In v pv -> st' v [] = st v [])).
      { clear Ht HQ Hp Hn Hds done st. induction m as [|m IHm]; intros v done st Hm HQ Hi Ht Hp.
        - exists st. cbn [List.seq map flat_map]. rewrite app_nil_r. repeat split; auto.
          pose proof (Hd done st HQ) as Hdd. inversion Hdd as [|? ? ? ? Hn Hds]. cbn [lbound snd] in Hn.
          apply R_lend. rewrite (cev_lt st i n d Hn), Hi. apply f_equal, Z.ltb_ge. lia.
        - pose proof (Hd done st HQ) as Hdd. inversion Hdd as [|? ? ? ? Hn Hds]. cbn [lbound snd] in Hn.
          cbn [List.seq map flat_map] in Ht |- *.
          destruct (IH ds (pv ++ [i]) (p ++ [Z.of_nat v]) done
                      (flat_map rows (map Z.of_nat (List.seq (S v) m)) ++ rest) st)%list as (s1 & R1 & Q1 & K1).
          { rewrite <- app_assoc. auto. }
          { auto. }
          { intros dn s Hdn. pose proof (Hd dn s Hdn) as X. inversion X; auto. }
          { rewrite Ht, <- !app_assoc, Erow. auto. }
          { auto. }
          { apply Forall2_app; [auto|]. constructor; auto. }
          assert (Hi1 : s1 i [] = Z.of_nat v).
          { rewrite K1; auto. apply in_or_app; right; left; auto. }
          destruct (IHm (S v) (done ++ map (app (p ++ [Z.of_nat v])) (box ds))%list (wr s1 i [] (Z.of_nat (S v)))) as (s2 & R2 & Q2 & K2).
          { lia. }
          { apply Q_loop; auto. }
          { apply wr_same. }
          { rewrite <- app_assoc, <- Erow, Ht, <- !app_assoc. auto. }
          { apply (Forall2_stable _ _ st); auto. intros w Hw. rewrite wr_other.
            - apply K1. apply in_or_app; auto.
            - left. intros ->. auto. }
          exists s2. repeat split.
          + apply R_lnext with (o1 := ONorm) (st1 := s1) (v := Z.of_nat (S v)); auto.
            * rewrite (cev_lt st i n d Hn), Hi. apply f_equal, Z.ltb_lt. lia.
            * apply eval_ev. rewrite ev_sadd. cbn [ev]. unfold env_of. rewrite Hi1. cbn [xadd].
              apply f_equal. lia.
          + rewrite <- app_assoc, <- Erow in Q2. auto.
          + intros w Hw. rewrite K2; auto. rewrite wr_other.
            * apply K1. apply in_or_app; auto.
            * left. intros ->. auto. }
      destruct (Loop (Z.to_nat d) 0%nat done (wr st i [] 0)) as (s2 & R2 & Q2 & K2).
      { auto. }
      { apply Q_loop; auto. }
      { apply wr_same. }
      { auto. }
      { apply (Forall2_stable _ _ st); auto. intros w Hw. apply wr_other. left. intros ->. auto. }
      exists s2. repeat split.
      + apply R_cons with (st1 := s2) (st2 := s2).
        * apply R_loop with (v := 0); auto.
        * reflexivity.
        * apply R_nil.
      + auto.
      + intros w Hw. rewrite K2; auto. apply wr_other. left. intros ->. auto.
  Qed.
End Nest.

(** The whole nest from an initial state. *)
Lemma nest_run I body l dims (Q : list (list Z) -> store -> Prop) st :
  NoDup (map lvar l) ->
  (forall done st v z, In v (map lvar l) -> Q done st -> Q done (wr st v [] z)) ->
  (forall done st, Q done st -> Forall2 (fun e d => eval (env_of st) (lbound e) = Some d) l dims) ->
  (forall done idx rest st, box dims = (done ++ idx :: rest)%list -> Q done st ->
    Forall2 (fun v z => st v [] = z) (map lvar l) idx ->
    exists st', runs I body st ONorm st' /\ Q (done ++ [idx])%list st' /\ (forall v, In v (map lvar l) -> st' v [] = st v [])) ->
  Q [] st -> exists st', runs I (nest l body) st ONorm st' /\ Q (box dims) st'.
Proof.
  intros Hnd Hl Hd Hs HQ.
  destruct (nest_inv I body (box dims) Q (map lvar l) Hl Hs l dims [] [] [] [] st) as (st' & R & Q' & _); auto.
  - cbn. rewrite app_nil_r. symmetry. apply map_id.
  - exists st'. split; auto. cbn in Q'. rewrite map_id in Q'. auto.
Qed.

(* ------------------------------------------------------------------ *)
(** Nests that write each visited index to its own cell of [y]. *)
Definition scattered (hid : list string) (y : string) (g : list Z -> list Z) (f : list Z -> Z)
    (st0 : store) (l : list (list Z)) (st : store) : Prop :=
  (forall j, In j l -> st y (g j) = f j) /\
  (forall z k, ~ In z hid -> (z <> y \/ (forall j, In j l -> k <> g j)) -> st z k = st0 z k).

Lemma scatter I (b : block) l dims hid y g f st0 :
  NoDup (map lvar l) -> incl (map lvar l) hid -> ~ In y hid ->
  Forall2 (fun e d => eval (env_of st0) (lbound e) = Some d) l dims ->
  (forall e x, In e l -> In x (atoms (lbound e)) -> x <> y /\ ~ In x hid) ->
  (forall j j', In j (box dims) -> In j' (box dims) -> g j = g j' -> j = j') ->
  (forall done idx rest st, box dims = (done ++ idx :: rest)%list -> scattered hid y g f st0 done st ->
    Forall2 (fun v z => st v [] = z) (map lvar l) idx ->
    exists st', exec_block I st b = Some st' /\ st' y (g idx) = f idx /\
      (forall z k, ~ In z hid -> (z <> y \/ k <> g idx) -> st' z k = st z k) /\
      (forall v, In v (map lvar l) -> st' v [] = st v [])) ->
  exists st', runs I (nest l (single b)) st0 ONorm st' /\ scattered hid y g f st0 (box dims) st'.
Proof.
  intros Hnd Hh Hy Hd Ha Hg Hb.
  apply nest_run with (Q := scattered hid y g f st0); auto.
  - intros done st v z Hv [H1 H2]. apply Hh in Hv. split.
    + intros j Hj. rewrite wr_other; auto. left. intros ->. auto.
    + intros w k Hw K. rewrite wr_other; auto. left. intros ->. auto.
  - intros done st [H1 H2]. clear Hb Hnd Hh Hg. revert Ha. induction Hd as [|e d l dims He Hd IH]; intros Ha; constructor.
    + rewrite <- He. apply eval_eqx with (D := fun x => x = y \/ In x hid).
      * intros x Hx j. apply H2; [intros K; apply Hx; auto|]. left. intros ->. apply Hx; auto.
      * intros x K Hx. destruct (Ha e x (or_introl eq_refl) K) as [A B]. destruct Hx; auto.
    + apply IH; auto.
      intros e' x He' Hx. apply (Ha e' x); auto. right; auto.
  - intros done idx rest st Hbox HQ Hv.
    destruct (Hb done idx rest st Hbox HQ Hv) as (st' & E & Ey & Eo & Ev).
    exists st'. split; [|split; [|auto]].
    + apply R_cons with (st1 := st') (st2 := st'); [apply R_block; auto|reflexivity|apply R_nil].
    + destruct HQ as [H1 H2].
      assert (Hin : forall j, In j done -> In j (box dims)) by (intros j Hj; rewrite Hbox; apply in_or_app; auto).
      assert (Hidx : In idx (box dims)) by (rewrite Hbox; apply in_or_app; right; left; auto).
      assert (Hni : ~ In idx done).
      { pose proof (box_NoDup dims) as N. rewrite Hbox in N. apply NoDup_remove_2 in N.
        intros K. apply N. apply in_or_app; auto. }
      split.
      * intros j Hj. apply in_app_iff in Hj as [Hj|[<-|[]]]; auto.
        rewrite Eo; auto. right. intros E'. apply Hg in E'; auto. subst. auto.
      * intros z k Hz K. rewrite Eo; auto.
        -- apply H2; auto. destruct K as [K|K]; auto. right. intros j Hj. apply K. apply in_or_app; auto.
        -- destruct K as [K|K]; auto. right. apply K. apply in_or_app. right. left. auto.
  - split; [intros j []|auto].
Qed.
