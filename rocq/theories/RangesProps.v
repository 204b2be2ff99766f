(** C69: the memory range analysis covers every access, and the copy sizes of
    offloading derived from it. *)
From Coq Require Import ZArith List Bool String Lia.
From Verif Require Import Sym SymFacts SymFuns SymProofs1 SymProofs2 IR IRFacts PassCFGProps Trace Par ParProofs Assum AssumProofs AssumProps Offload OffloadProofs OffloadProps Ranges.
Import ListNotations.
Local Open Scope string_scope.
Local Open Scope list_scope.
Local Open Scope Z_scope.

(** no trunc_i32 in the subscripts of [x] or in the assumptions used for them (C04) *)
Definition plain_subscripts (at_ctx : list hdr -> assumptions) (p : node) (x : string) : Prop :=
  forall a, In a (accN [] p) -> a_x a = x -> forallb no_trunc (a_sub a) = true /\ no_trunc_A (at_ctx (a_ctx a)).

(** Every element of [x] that an execution of [p] reads or writes lies between the
    bounds the analysis gives, evaluated where [p] starts. [A], [T]: the assumptions
    where [p] starts; [tameN], [fixed], [holds] as in C39. *)
Theorem C69_range_partial : forall I consts inv is_int A T p st o st' Tr x r w e j,
  tameN consts inv A T p -> fixed A (nwrites p) -> holds (env_of st) A -> plain_subscripts (assums_at consts inv A T) p x ->
  mem_range is_int (assums_at consts inv A T) p x = Some r -> runT I p st o st' Tr -> In (Ev w x e j) Tr ->
  (List.length j <= List.length r)%nat /\
  forall k lo hi z, nth_error r k = Some (lo, hi) -> nth_error j k = Some z ->
    (forall a, eval (env_of st) lo = Some a -> a <= z) /\ (forall b, eval (env_of st) hi = Some b -> z <= b).
Proof. intros I consts inv is_int A T p st o st' Tr x r w e j W F H. eapply range_sound; eauto. apply fixed_good; auto. Qed.

(** A copy of the reported size holds every element the map touches, if the lowest
    index is not negative. *)
Theorem C69_copy_size_partial : forall I consts inv is_int A T p st o st' Tr x lo hi r e n l,
  tameN consts inv A T p -> fixed A (nwrites p) -> holds (env_of st) A -> plain_subscripts (assums_at consts inv A T) p x ->
  mem_range is_int (assums_at consts inv A T) p x = Some ((lo, hi) :: r) -> copy_size is_int (assums_at consts inv A T) p x = Some e ->
  eval (env_of st) lo = Some l -> 0 <= l -> eval (env_of st) e = Some n ->
  runT I p st o st' Tr -> forall k, touched Tr x [k] -> 0 <= k < n.
Proof.
  intros I consts inv is_int A T p st o st' Tr x lo hi r e n l W F H PS MR CS EL L0 EN R k (w & e' & K).
  destruct (C69_range_partial I consts inv is_int A T p st o st' Tr x _ w e' [k] W F H PS MR R K) as [_ Q].
  unfold copy_size in CS. rewrite MR in CS. injection CS as <-.
  destruct (Q 0%nat lo hi k eq_refl eq_refl) as [Q1 Q2]. specialize (Q1 l EL).
  apply eval_ev in EN. rewrite ev_sadd in EN. cbn [ev] in EN. destruct (ev (env_of st) hi) as [b| | |] eqn:Eh; cbn in EN; try discriminate. injection EN as <-.
  specialize (Q2 b (proj2 (eval_ev _ _ _) Eh)). lia.
Qed.

(** Offloading a map with these sizes keeps its meaning (C67 without an assumption on
    the accesses): the arrays are flat, their lowest index and their size are not
    negative. *)
Theorem C69_offload_partial : forall I dev consts inv is_int A T pre args p s h Tr,
  runT I p (host s) ONorm h Tr -> (forall q, (fresh s <= q)%nat -> heap s q = None) ->
  tameN consts inv A T p -> fixed A (nwrites p) -> holds (env_of (host s)) A ->
  NoDup (map fst args) -> (forall a e, In (a, e) args -> dev (pre ++ a)%string = true) -> (forall x, In x (nnames p) \/ In x (map fst args) -> dev x = false) ->
  (forall a e, In (a, e) args -> copy_size is_int (assums_at consts inv A T) p a = Some e /\ plain_subscripts (assums_at consts inv A T) p a /\
     (forall w e j, In (Ev w a e j) Tr -> exists k, j = [k]) /\
     (exists n, eval (env_of (host s)) e = Some n /\ 0 <= n) /\
     (forall lo hi r, mem_range is_int (assums_at consts inv A T) p a = Some ((lo, hi) :: r) -> exists l, eval (env_of (host s)) lo = Some l /\ 0 <= l)) ->
  exists s', doall I dev (offload pre args p) s s' /\ (forall s2, doall I dev (offload pre args p) s s2 -> s2 = s') /\
    (forall x j, In x (map fst args) -> host s' x j = h x j) /\ (forall x j, ~ In x (map fst args) -> host s' x j = host s x j) /\
    (forall q, same_buffer (heap s q) (heap s' q)).
Proof.
  intros I dev consts inv is_int A T pre args p s h Tr R WF W F H ND DV HV SZ. apply (C67_offload I dev pre args p s h Tr R); auto.
  split; [exact ND|]. split; [exact DV|]. split; [exact HV|]. intros a e Ha. destruct (SZ a e Ha) as (CS & PS & FL & (n & EN & N0) & LO).
  exists n. split; [exact EN|]. split; [exact N0|]. intros j Tj. pose proof Tj as (w & e' & K). destruct (FL _ _ _ K) as [k ->]. exists k. split; [reflexivity|].
  pose proof CS as CS'. unfold copy_size in CS'. destruct (mem_range is_int (assums_at consts inv A T) p a) as [[|[lo hi] r]|] eqn:MR; try discriminate.
  destruct (LO lo hi r eq_refl) as (l & EL & L0).
  eapply (C69_copy_size_partial I consts inv is_int A T p (host s) ONorm h Tr a lo hi r e n l); eauto.
Qed.

(* ----------------------------------------------------------------- *)
(** The hypotheses are met: for (i = 0; i < N; i++) for (j = i; j < N; j++) A[j] = B[i] *)
Definition c69_consts : hdr -> list string := const_syms (fun _ => true).
Definition c69_at : list hdr -> assumptions := assums_at c69_consts (inv_of mems) no_entry no_entry.
Example c69_ranges : mem_range (fun _ => true) c69_at outer_n "A" = Some [(EInt 0, EAdd [EInt (-1); ESym "N"])] /\
  mem_range (fun _ => true) c69_at outer_n "B" = Some [(EInt 0, EAdd [EInt (-1); ESym "N"])] /\
  option_map (eval (env_of st3)) (copy_size (fun _ => true) c69_at outer_n "A") = Some (Some 3).
Proof. vm_compute. auto. Qed.
(** the symbols a loop says something about *)
Lemma supp_at L x f B : In x L -> (forall y a, B y = Some a -> In y L) -> forall y a, at_sym x f B y = Some a -> In y L.
Proof. intros Hx G y a. unfold at_sym. destruct (String.eqb_spec y x) as [->|]; auto. apply G. Qed.
Lemma supp_fold {X} L (f : X -> assumptions -> assumptions) l : (forall e B, In e l -> (forall y a, B y = Some a -> In y L) -> forall y a, f e B y = Some a -> In y L) ->
  forall B, (forall y a, B y = Some a -> In y L) -> forall y a, fold_left (fun B e => f e B) l B y = Some a -> In y L.
Proof. induction l as [|e l IH]; intros F B G; cbn [fold_left]; auto. apply IH; [intros e' B' He'; apply F; right; auto|]. apply F; [left; auto|auto]. Qed.
Lemma body_supp consts ilb iub T h L : In (h_i h) L -> incl (catoms (h_c h) ++ consts) L -> incl (atoms (h_init h)) L ->
  (forall N ub, cnf (h_c h) = Some N -> cnf_upper N (h_i h) = Some ub -> incl (atoms ub) L) ->
  forall y a, body_assums consts ilb iub T h y = Some a -> In y L.
Proof.
  intros Hi Hc Hn Hu. unfold body_assums.
  assert (FL: forall y l B, In y L -> (forall y a, B y = Some a -> In y L) -> forall z a, fold_left (fun B e => at_sym y (add_lb e) B) l B z = Some a -> In z L).
  { intros y l B Hy G. apply (supp_fold L (fun e B => at_sym y (add_lb e) B)); auto. intros e B' _ G'. apply supp_at; auto. }
  assert (FU: forall y l B, In y L -> (forall y a, B y = Some a -> In y L) -> forall z a, fold_left (fun B e => at_sym y (add_ub e) B) l B z = Some a -> In z L).
  { intros y l B Hy G. apply (supp_fold L (fun e B => at_sym y (add_ub e) B)); auto. intros e B' _ G'. apply supp_at; auto. }
  cbn zeta. set (B0 := fold_left _ (catoms (h_c h) ++ consts) no_entry).
  assert (G0: forall y a, B0 y = Some a -> In y L).
  { apply (supp_fold L (fun x B => at_sym x set_const B)); [|intros y a H; discriminate H]. intros x B Hx G. apply supp_at; auto. }
  set (B1 := at_sym (h_i h) _ B0). assert (G1: forall y a, B1 y = Some a -> In y L) by (apply supp_at; auto).
  set (B2 := fold_left _ ilb B1). set (B3 := fold_left _ iub B2).
  assert (G3: forall y a, B3 y = Some a -> In y L) by (apply FU, FL; auto).
  destruct (negb _); [exact G3|].
  set (B4 := at_sym (h_i h) _ B3). assert (G4: forall y a, B4 y = Some a -> In y L) by (apply supp_at; auto).
  set (B5 := match h_init h with ESym y => _ | _ => B4 end). assert (G5: forall y a, B5 y = Some a -> In y L) by (unfold B5; destruct (h_init h); try exact G4; apply FL; auto; apply Hn; cbn; auto).
  destruct (cnf (h_c h)) as [N|] eqn:EN; [|exact G5]. destruct (cnf_upper N (h_i h)) as [ub|] eqn:EU; [|exact G5]. specialize (Hu N ub eq_refl EU).
  apply (supp_fold L (fun x B => at_sym x (fun a => set_lbd (sadd (h_init h) (EInt 1)) (add_lb (sadd (h_init h) (EInt 1)) a)) B)); [intros e B He G; apply supp_at; auto|].
  set (B6 := at_sym (h_i h) _ B5). assert (G6: forall y a, B6 y = Some a -> In y L) by (apply supp_at; auto).
  set (B7 := if is_contiguous _ _ _ then _ else B6). assert (G7: forall y a, B7 y = Some a -> In y L) by (unfold B7; destruct (is_contiguous _ _ _); auto; apply supp_at; auto).
  destruct ub; try exact G7. apply FU; auto. apply Hu. cbn. auto.
Qed.
Lemma supp_at_ctx consts inv L ctx : (forall h, In h ctx -> forall T y a, body_assums (consts h) (fst (inv h)) (snd (inv h)) T h y = Some a -> In y L) ->
  forall A T, (forall y a, A y = Some a -> In y L) -> forall y a, assums_at consts inv A T ctx y = Some a -> In y L.
Proof.
  unfold assums_at. induction ctx as [|h ctx IH]; intros H A T G; cbn [fold_left]; auto.
  rewrite (surjective_pairing (enter _ _ (A, T) h)). apply IH; [intros h' Hh; apply H; right; exact Hh|].
  cbn [enter fst snd]. intros y a. unfold propagate. destruct (body_assums _ _ _ _ h y) as [b|] eqn:E; [intros _; eapply H; [left; reflexivity|exact E]|apply G].
Qed.
Definition c69_L : list string := ["i"; "j"; "N"; "A"; "B"].
Definition inL (l : list string) : bool := forallb (fun x => existsb (String.eqb x) c69_L) l.
Lemma inL_ok l : inL l = true -> incl l c69_L.
Proof. intros H x Hx. unfold inL in H. rewrite forallb_forall in H. specialize (H x Hx). apply existsb_exists in H as (y & Hy & E). apply String.eqb_eq in E. congruence. Qed.
Lemma c69_supp y a : c69_at [outer_h; inner_h] y = Some a -> In y c69_L.
Proof.
  apply supp_at_ctx; [|intros z b Q; discriminate Q]. intros h Hh T. apply body_supp.
  - destruct Hh as [<-|[<-|[]]]; cbn; auto.
  - apply inL_ok. destruct Hh as [<-|[<-|[]]]; vm_compute; reflexivity.
  - apply inL_ok. destruct Hh as [<-|[<-|[]]]; vm_compute; reflexivity.
  - intros N ub E1 E2. apply inL_ok. destruct Hh as [<-|[<-|[]]]; vm_compute in E1; injection E1 as <-; vm_compute in E2; injection E2 as <-; vm_compute; reflexivity.
Qed.
Lemma c69_plain x : plain_subscripts c69_at outer_n x.
Proof.
  intros a Ha _. assert (C: a_ctx a = [outer_h; inner_h] /\ forallb no_trunc (a_sub a) = true) by (destruct Ha as [<-|[<-|[]]]; split; reflexivity).
  destruct C as [-> C]. split; [exact C|]. intros y b E. pose proof (c69_supp y b E) as Hy.
  repeat (destruct Hy as [<-|Hy]; [vm_compute in E; first [discriminate E|injection E as <-; repeat split; try reflexivity; intros c; cbn; intros Q; first [discriminate Q|injection Q as <-; reflexivity]]|]). destruct Hy.
Qed.
Example C69_hypotheses : tameN c69_consts (inv_of mems) no_entry no_entry outer_n /\ fixed no_entry (nwrites outer_n) /\ holds (env_of (stv [("N", 1)])) no_entry /\
  plain_subscripts c69_at outer_n "A" /\ plain_subscripts c69_at outer_n "B" /\
  exists h T, runT I0 outer_n (stv [("N", 1)]) ONorm h T /\ touched T "A" [0].
Proof.
  split; [exact outer_tame|]. split; [intros x a Q; discriminate Q|]. split; [intros x a Q; discriminate Q|]. split; [apply c69_plain|]. split; [apply c69_plain|].
  assert (B: exists h T, runT I0 outer_n (stv [("N", 1)]) ONorm h T /\ existsb (fun e => match e with Ev true x _ [k] => String.eqb x "A" && (k =? 0) | _ => false end) T = true).
  { eexists. eexists. split.
    - eapply T_loop; [reflexivity|].
      do 1 (eapply T_lnext; [reflexivity| |left; reflexivity|reflexivity|];
        [eapply T_cons; [eapply T_loop; [reflexivity|]; repeat (eapply T_lnext; [reflexivity|eapply T_cons; [apply T_block; reflexivity|reflexivity|constructor]|left; reflexivity|reflexivity|]); apply T_lend; reflexivity|reflexivity|constructor]|]).
      apply T_lend. reflexivity.
    - vm_compute. reflexivity. }
  destruct B as (h & T & R & B). exists h, T. split; [exact R|]. apply existsb_exists in B as (e & He & Q). destruct e as [[|] x ee [|k [|]]]; try discriminate.
  apply andb_true_iff in Q as [Q1 Q2]. apply String.eqb_eq in Q1. apply Z.eqb_eq in Q2. subst. exists true, ee. exact He.
Qed.

(* ----------------------------------------------------------------- *)
(** Where the reported size is wrong. The lower bound is not looked at:
    map (i = 0; i < N; i++) B[i] = A[i - 1] *)
Definition c69_back : node := NLoop KMap "i" (EInt 0) (CLt (ESym "i") (ESym "N")) (EAdd [EInt 1; ESym "i"])
  (SCons (NBlock [{| o_code := 0%nat; o_ins := [ORead "A" [EAdd [EInt (-1); ESym "i"]]]; o_out := "B"; o_sub := [ESym "i"] |}]) [] SNil).
Definition c69_at0 : list hdr -> assumptions := assums_at c69_consts (inv_of []) no_entry no_entry.
Theorem C69_negative_index_refuted : exists e n h T, copy_size (fun _ => true) c69_at0 c69_back "A" = Some e /\ eval (env_of (stv [("N", 2)])) e = Some n /\
  runT I0 c69_back (stv [("N", 2)]) ONorm h T /\ exists k, touched T "A" [k] /\ ~ (0 <= k < n).
Proof.
  destruct (copy_size (fun _ => true) c69_at0 c69_back "A") as [e|] eqn:E; [|vm_compute in E; discriminate].
  destruct (eval (env_of (stv [("N", 2)])) e) as [n|] eqn:EN; [|vm_compute in E; injection E as <-; vm_compute in EN; discriminate].
  assert (B: exists h T, runT I0 c69_back (stv [("N", 2)]) ONorm h T /\ existsb (fun e => match e with Ev _ x _ [k] => String.eqb x "A" && (k =? -1) | _ => false end) T = true).
  { eexists. eexists. split.
    - eapply T_loop; [reflexivity|]. repeat (eapply T_lnext; [reflexivity|eapply T_cons; [apply T_block; reflexivity|reflexivity|constructor]|left; reflexivity|reflexivity|]). apply T_lend. reflexivity.
    - vm_compute. reflexivity. }
  destruct B as (h & T & R & B). apply existsb_exists in B as (ev & He & Q). destruct ev as [w x ee [|k [|]]]; try discriminate.
  apply andb_true_iff in Q as [Q1 Q2]. apply String.eqb_eq in Q1. apply Z.eqb_eq in Q2. subst x k.
  exists e, n, h, T. split; [reflexivity|]. split; [exact EN|]. split; [exact R|]. exists (-1). split; [exists w, ee; exact He|lia].
Qed.
(** Nor is the sign of the size: with N = -5 the map does nothing, and its offloaded
    form asks for a buffer of -5 elements. *)
Theorem C69_empty_map_refuted : exists p dev args s h T, runT I0 p (host s) ONorm h T /\
  (forall a e, In (a, e) args -> copy_size (fun _ => true) c69_at0 p a = Some e) /\ args <> [] /\ ~ exists s', doall I0 dev (offload "g" args p) s s'.
Proof.
  destruct (copy_size (fun _ => true) c69_at0 c67_map "A") as [e|] eqn:E; [|vm_compute in E; discriminate].
  exists c67_map, c67_dev, [("A", e)], (Mc (stv [("N", -5)]) (fun _ => None) (fun _ => None) 0). do 2 eexists. split; [eapply T_loop; [reflexivity|]; apply T_lend; reflexivity|].
  split; [intros a e' [Q|[]]; injection Q as <- <-; exact E|]. split; [discriminate|]. intros (s' & D).
  inversion D as [|? ? ? t ? D1 D2]. apply xxfer_does in D1. vm_compute in E. injection E as <-. vm_compute in D1. discriminate.
Qed.
