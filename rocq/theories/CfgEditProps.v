(** * C52, C53: unifying loop exits; inserting states and loops *)
From Coq Require Import ZArith List Bool String Lia PeanoNat Permutation.
From Verif Require Import Sym SymFacts SymFuns IR IRFacts PassCFGProps Cfg CfgProofs CfgProps CfgEdit.
Import ListNotations.
Local Open Scope string_scope.
Local Open Scope list_scope.
Local Open Scope nat_scope.

(* ---------------------------------------------------------------- *)
(** * Specification *)
(** Started in state [s], [h] ends where [g] ends: it terminates from the same stores,
    with the same return value and the same values outside of [D]. *)
Definition same_runs (D : string -> Prop) (I : nat -> list Z -> option Z) (g h : cfg) (s : nat) : Prop := forall st r,
  (forall st1, (exists n, crun I g n s st r st1) -> exists n st2, crun I h n s st r st2 /\ forall x, ~ D x -> forall j, st2 x j = st1 x j) /\
  (forall st2, (exists n, crun I h n s st r st2) -> exists n st1, crun I g n s st r st1 /\ forall x, ~ D x -> forall j, st2 x j = st1 x j).
(** The executions of [g] in which, after the block of [s], the loop [l] runs. *)
Inductive loop_run (I : nat -> list Z -> option Z) (g : cfg) (s : nat) (l : node) : nat -> store -> string -> store -> Prop :=
| L_ret t st st' r : out g t = [] -> t <> s -> exec_block I st (g_blk g t) = Some st' -> g_ret g t = Some r -> loop_run I g s l t st r st'
| L_next t st sta stb e st1 r st' : exec_block I st (g_blk g t) = Some sta -> (if t =? s then run I l sta ONorm stb else stb = sta) ->
    In e (out g t) -> cev (env_of stb) (e_cond e) = Some true -> exec_assigns stb (e_asg e) = Some st1 ->
    loop_run I g s l (e_dst e) st1 r st' -> loop_run I g s l t st r st'.

(* ---------------------------------------------------------------- *)
(** * C52 *)
Lemma unify_inv g m sym pos id1 id2 order bedges h : unify_pass g m sym pos id1 id2 order bedges = Some h ->
  exists be, In be bedges /\ 1 < List.length (exit_states g (natural_loop g be)) /\ h = unify g m sym pos id1 id2 (natural_loop g be) (order (exit_states g (natural_loop g be))).
Proof.
  unfold unify_pass. destruct (find _ bedges) as [be|] eqn:F; [|discriminate]. intros E. injection E as <-. apply find_some in F as [F1 F2].
  apply Nat.ltb_lt in F2. exists be. auto.
Qed.
Lemma all_exits g L e : In e (g_edges g) -> leaves L e = true -> In (e_dst e) (exit_states g L).
Proof. intros H1 H2. unfold exit_states. apply nodup_In, in_map. apply filter_In. auto. Qed.
Theorem C52_unify_loop_exits : forall I g m sym pos id1 id2 order bedges h,
  (forall l, Permutation (order l) l) -> new_state g m -> new_symbol g sym ->
  unify_pass g m sym pos id1 id2 order bedges = Some h -> g_start h = g_start g /\ same_runs (fun x => x = sym) I g h (g_start g).
Proof.
  intros I g m sym pos id1 id2 order bedges h PO NS NY U. apply unify_inv in U as (be & _ & _ & ->). set (L := natural_loop g be). split; [reflexivity|].
  assert (ND: NoDup (order (exit_states g L))) by (eapply Permutation_NoDup; [apply Permutation_sym, PO|apply NoDup_nodup]).
  assert (ALL: forall e, In e (g_edges g) -> leaves L e = true -> In (e_dst e) (order (exit_states g L))).
  { intros e H1 H2. eapply Permutation_in; [apply Permutation_sym, PO|]. apply all_exits; assumption. }
  assert (NM: g_start g <> m) by apply NS.
  intros st r. split.
  - intros st1 (n & C). destruct (unify_fwd g m sym pos id1 id2 order I L _ NS NY ALL n _ _ _ _ C NM st) as (n' & st2 & C2 & Q); [intros x _ j; reflexivity|].
    exists n', st2. split; [exact C2|]. intros x N j. symmetry. apply Q. exact N.
  - intros st2 (n & C). destruct (unify_bwd g m sym pos id1 id2 order I L _ NS NY ALL n _ _ _ _ C NM st) as (n' & st1 & C2 & Q); [intros x _ j; reflexivity|].
    exists n', st1. split; [exact C2|]. intros x N j. symmetry. apply Q. exact N.
Qed.
(** The loop that was changed had several exits and is left through the new state only;
    the new state leads to the former exits, the other edges are kept; the pass reports no
    change only if every loop has at most one exit. *)
Lemma backwards_from g fuel stop : forall q v x, In x (backwards g fuel stop q v) -> In x q \/ In x v \/ exists e, In e (g_edges g) /\ e_src e = x.
Proof.
  induction fuel as [|f IH]; intros q v x H; [simpl in H; auto|]. destruct q as [|s q]; [simpl in H; auto|]. cbn [backwards] in H.
  destruct (mem s v); [apply IH in H as [H|H]; simpl; auto|]. destruct (s =? stop).
  - apply IH in H as [H|[[H|H]|H]]; simpl; auto.
  - apply IH in H as [H|[[H|H]|H]]; simpl; auto. apply in_app_or in H as [H|H]; [auto|]. apply in_map_iff in H as (e & E & H). unfold inn in H. apply filter_In in H as [H _].
    right; right. exists e. auto.
Qed.
Lemma leaves_iff L e : leaves L e = true <-> In (e_src e) L /\ ~ In (e_dst e) L.
Proof. unfold leaves. rewrite andb_true_iff, negb_true_iff. rewrite <- mem_in, <- mem_not. tauto. Qed.
Theorem C52_single_exit : forall g m sym pos id1 id2 order bedges, (forall l, Permutation (order l) l) -> new_state g m -> incl bedges (g_edges g) ->
  match unify_pass g m sym pos id1 id2 order bedges with
  | Some h => exists be L, In be bedges /\ L = natural_loop g be /\ ~ In m L /\
      (exists e f, In e (g_edges g) /\ In f (g_edges g) /\ leaves L e = true /\ leaves L f = true /\ e_dst e <> e_dst f) /\
      (forall e, In e (g_edges h) -> In (e_src e) L -> ~ In (e_dst e) L -> e_dst e = m) /\
      (forall x, (exists e, In e (out h m) /\ e_dst e = x) <-> (exists e, In e (g_edges g) /\ leaves L e = true /\ e_dst e = x)) /\
      (forall e, In e (g_edges g) -> leaves L e = false -> In e (g_edges h))
  | None => forall be e f, In be bedges -> In e (g_edges g) -> In f (g_edges g) -> leaves (natural_loop g be) e = true -> leaves (natural_loop g be) f = true -> e_dst e = e_dst f
  end.
Proof.
  intros g m sym pos id1 id2 order bedges PO NS SUB. destruct (unify_pass g m sym pos id1 id2 order bedges) as [h|] eqn:U.
  - apply unify_inv in U as (be & H1 & H2 & ->). set (L := natural_loop g be) in *. exists be, L. do 2 (split; [auto|]).
    assert (NM: ~ In m L).
    { intros H. apply backwards_from in H as [[H|[]]|[[]|(e & He & H)]]; [apply (proj1 (proj2 NS be (SUB be H1))); exact H|apply (proj1 (proj2 NS e He)); exact H]. }
    split; [exact NM|].
    assert (XS: forall x, In x (order (exit_states g L)) <-> exists e, In e (g_edges g) /\ leaves L e = true /\ e_dst e = x).
    { intros x. transitivity (In x (exit_states g L)).
      - split; intros K; [eapply Permutation_in; [apply PO|exact K]|eapply Permutation_in; [apply Permutation_sym, PO|exact K]].
      - unfold exit_states. rewrite nodup_In, in_map_iff. split; [intros (e & E & K); apply filter_In in K as [K1 K2]; eauto|intros (e & K1 & K2 & E); exists e; split; [exact E|apply filter_In; auto]]. }
    split; [|split; [|split]].
    + assert (NDx: NoDup (exit_states g L)) by apply NoDup_nodup. assert (IN: forall x, In x (exit_states g L) -> exists e, In e (g_edges g) /\ leaves L e = true /\ e_dst e = x).
      { intros x K. apply XS. eapply Permutation_in; [apply Permutation_sym, PO|exact K]. }
      destruct (exit_states g L) as [|a [|b l]]; simpl in H2; try lia. destruct (IN a) as (e & E1 & E2 & E3); [left; reflexivity|]. destruct (IN b) as (f & F1 & F2 & F3); [right; left; reflexivity|].
      exists e, f. do 4 (split; [assumption|]). apply NoDup_cons_iff in NDx as [N _]. rewrite E3, F3. intros ->. apply N. left. reflexivity.
    + intros e He I1 I2. simpl in He. apply in_app_or in He as [He|He].
      * exfalso. apply filter_In in He as [_ He]. apply negb_true_iff in He. assert (leaves L e = true) by (apply leaves_iff; auto). congruence.
      * apply (exits_of_in g m sym pos id1 id2 order (fun _ _ => None)) in He as (k & x & _ & [->|(f & _ & _ & _ & ->)]); [simpl in I1; contradiction|reflexivity].
    + intros x. rewrite <- XS. split.
      * intros (e & He & <-). apply out_in in He as [He E]. simpl in He. apply in_app_or in He as [He|He].
        -- apply filter_In in He as [He _]. destruct (proj2 NS e He). congruence.
        -- apply (exits_of_in g m sym pos id1 id2 order (fun _ _ => None)) in He as (k & y & Hk & [->|(f & F1 & _ & _ & ->)]); [simpl; eapply nth_error_In; exact Hk|]. simpl in E. destruct (proj2 NS f F1). congruence.
      * intros K. apply In_nth_error in K as (k & K). exists (dispatch m sym id2 (0 + k) x). split; [|reflexivity]. apply out_in. split; [|reflexivity]. simpl. apply in_or_app. right.
        apply (exits_of_in g m sym pos id1 id2 order (fun _ _ => None)). exists k, x. auto.
    + intros e He N. apply kept_edge; assumption.
  - intros be e f Hb He Hf L1 L2. destruct (Nat.eq_dec (e_dst e) (e_dst f)) as [Q|Q]; [exact Q|exfalso].
    unfold unify_pass in U. destruct (find _ bedges) eqn:F; [discriminate|]. pose proof (find_none _ _ F be Hb) as G0. simpl in G0. apply Nat.ltb_ge in G0.
    pose proof (all_exits g _ e He L1) as A. pose proof (all_exits g _ f Hf L2) as B. destruct (exit_states g (natural_loop g be)) as [|a [|b l]]; simpl in A, B, G0; [destruct A| |lia].
    destruct A as [A|[]], B as [B|[]]. congruence.
Qed.
(** The result still has at most one edge to take. *)
Theorem C52_exclusive : forall g m sym pos id1 id2 order bedges h, (forall l, Permutation (order l) l) -> new_state g m ->
  unify_pass g m sym pos id1 id2 order bedges = Some h -> exclusive g -> exclusive h.
Proof.
  intros g m sym pos id1 id2 order bedges h PO NS U EX. apply unify_inv in U as (be & _ & _ & ->). set (L := natural_loop g be).
  assert (ND: NoDup (order (exit_states g L))) by (eapply Permutation_NoDup; [apply Permutation_sym, PO|apply NoDup_nodup]).
  assert (CASES: forall s e, In e (out (unify g m sym pos id1 id2 L (order (exit_states g L))) s) ->
    (s <> m /\ exists f, In f (out g s) /\ e_cond e = e_cond f /\ (e = f /\ leaves L f = false \/ leaves L f = true /\ exists k, nth_error (order (exit_states g L)) k = Some (e_dst f) /\ e = redirect m sym pos id1 k f)) \/
    (s = m /\ exists k x, nth_error (order (exit_states g L)) k = Some x /\ e = dispatch m sym id2 k x)).
  { intros s e H. apply out_in in H as [H <-]. simpl in H. apply in_app_or in H as [H|H].
    - apply filter_In in H as [H N]. left. split; [apply (proj2 NS); exact H|]. exists e. split; [apply out_in; auto|]. split; [reflexivity|left]. apply negb_true_iff in N. auto.
    - apply (exits_of_in g m sym pos id1 id2 order (fun _ _ => None)) in H as (k & x & Hk & [->|(f & F1 & F2 & F3 & ->)]).
      + right. split; [reflexivity|]. exists k, x. auto.
      + left. split; [simpl; apply (proj2 NS); exact F1|]. exists f. split; [apply out_in; auto|]. split; [reflexivity|right]. split; [exact F2|]. exists k. subst x. auto. }
  intros s e f st He Hf N T. apply CASES in He as [(Sm & e0 & E1 & E2 & E3)|(Sm & k & x & K & ->)], Hf as [(Sm' & f0 & F1 & F2 & F3)|(Sm' & k' & x' & K' & ->)]; try congruence.
  - rewrite F2. apply (EX s e0 f0 st E1 F1); [|congruence]. intros ->. apply N. destruct E3 as [[-> E3]|(E3 & k & K & ->)], F3 as [[-> F3]|(F3 & k' & K' & ->)]; try congruence.
    assert (k = k') by (eapply NoDup_nth_error; [exact ND|apply nth_error_Some; rewrite K; discriminate|rewrite K, K'; reflexivity]). congruence.
  - simpl in T |- *. injection T as T. apply Z.eqb_eq in T. f_equal. apply Z.eqb_neq. intros Q. apply N. assert (k = k') by lia. subst k'. rewrite K in K'. congruence.
Qed.
(** Structuring the result. *)
Theorem C52_then_structure : forall I g m sym pos id1 id2 order bedges h back pdom dom fuel p n st r st',
  (forall l, Permutation (order l) l) -> new_state g m -> new_symbol g sym -> exclusive g ->
  unify_pass g m sym pos id1 id2 order bedges = Some h -> unique_ids h -> proper h back dom -> structure h back pdom dom fuel = Some p ->
  crun I g n (g_start g) st r st' -> exists st2, runs I p st (ORet r) st2 /\ forall x, x <> sym -> forall j, st2 x j = st' x j.
Proof.
  intros I g m sym pos id1 id2 order bedges h back pdom dom fuel p n st r st' PO NS NY EX U ID PR HS C.
  destruct (C52_unify_loop_exits I g m sym pos id1 id2 order bedges h PO NS NY U) as [S0 SR].
  destruct (proj1 (SR st r) st') as (n2 & st2 & C2 & Q); [eauto|]. exists st2. split; [|exact Q].
  eapply C51_terminating_runs; [exact PR|exact ID|eapply C52_exclusive; eauto|exact HS|]. rewrite S0. exact C2.
Qed.

(** while (x != 3) { if (y == 1) goto B; x = x + 1 } A: r = 1; return x; B: r = 2; return x *)
Definition c52_g : cfg := G 0 (if_ 0 0 3 1 (is_ "x" 3) ++ if_ 2 1 4 2 (is_ "y" 1) ++ [goa 4 2 0 (plus1 "x"); go_ 5 3 5; goa 6 4 5 [("x", EInt 9)]]) (at_state [(3, [sets "r" 1]); (4, [sets "r" 2])]) (returns 5).
Definition c52_h : option cfg := unify_pass c52_g 6 "j" (fun _ => 0) (fun e => 20 + e_id e) (fun i => 40 + i) (fun l => l) [goa 4 2 0 (plus1 "x")].
Lemma new_state_dec g m : negb (g_start g =? m) && forallb (fun e => negb (e_src e =? m) && negb (e_dst e =? m)) (g_edges g) = true -> new_state g m.
Proof.
  intros H. apply andb_true_iff in H as [H1 H2]. apply negb_true_iff, Nat.eqb_neq in H1. split; [exact H1|]. intros e He. rewrite forallb_forall in H2. specialize (H2 e He).
  apply andb_true_iff in H2 as [H2 H3]. apply negb_true_iff, Nat.eqb_neq in H2. apply negb_true_iff, Nat.eqb_neq in H3. auto.
Qed.
Definition memS (x : string) (l : list string) : bool := existsb (String.eqb x) l.
Lemma memS_not x l : memS x l = false -> ~ In x l.
Proof. intros H J. assert (memS x l = true); [|congruence]. apply existsb_exists. exists x. split; [exact J|apply String.eqb_refl]. Qed.
Lemma new_symbol_dec g sym (l : list (nat * block)) : (forall s, ~ In s (map fst l) -> g_blk g s = []) -> forallb (fun s => negb (memS sym (block_reads (g_blk g s)))) (map fst l) &&
  forallb (fun e => negb (memS sym (catoms (e_cond e))) && negb (memS sym (asg_reads (e_asg e))) && negb (memS sym (map fst (e_asg e)))) (g_edges g) = true -> @new_symbol g sym.
Proof.
  intros B H. apply andb_true_iff in H as [H1 H2]. rewrite forallb_forall in H1, H2. split.
  - intros s. destruct (in_dec Nat.eq_dec s (map fst l)) as [J|J]; [apply memS_not, negb_true_iff, H1; exact J|rewrite (B s J); simpl; auto].
  - intros e He. specialize (H2 e He). rewrite !andb_true_iff, !negb_true_iff in H2. destruct H2 as [[A1 A2] A3]. auto using memS_not.
Qed.
Lemma at_state_none l s : ~ In s (map fst l) -> at_state l s = [].
Proof. unfold at_state. induction l as [|p l IH]; intros N; [reflexivity|]. simpl in *. destruct (Nat.eqb_spec (fst p) s); [tauto|]. apply IH. tauto. Qed.
Theorem C52_hypotheses : exists h n st', c52_h = Some h /\ new_state c52_g 6 /\ new_symbol c52_g "j" /\ exclusive c52_g /\
  unique_ids h /\ crun I0 h n 0 (fun x _ => if String.eqb x "y" then 1%Z else 0%Z) "x" st' /\ st' "r" [] = 2%Z /\ st' "x" [] = 9%Z.
Proof.
  assert (NS: new_state c52_g 6) by (apply new_state_dec; vm_compute; reflexivity).
  assert (NY: new_symbol c52_g "j").
  { apply (new_symbol_dec c52_g "j" [(3, [sets "r" 1]); (4, [sets "r" 2])]); [intros s; apply at_state_none|vm_compute; reflexivity]. }
  destruct (binary_ok c52_g) as [EX _]; [vm_compute; reflexivity|].
  destruct c52_h as [h|] eqn:H; [|vm_compute in H; discriminate].
  destruct (xrun h I0 40 0 (fun x _ => if String.eqb x "y" then 1%Z else 0%Z)) as [[r st']|] eqn:X; [|vm_compute in H; injection H as <-; vm_compute in X; discriminate].
  destruct (xrun_ok _ _ _ _ _ _ _ X) as (n & C). exists h, n, st'. split; [reflexivity|]. do 3 (split; [assumption|]).
  vm_compute in H. injection H as <-. split; [apply distinct_ok; vm_compute; reflexivity|].
  vm_compute in X. injection X as <- <-. split; [exact C|]. vm_compute. auto.
Qed.

(* ---------------------------------------------------------------- *)
(** * C53 *)
Theorem C53_add_state_before_partial : forall nid I g s n b, new_state g n -> s <> n -> (forall e, In e (inn g s) -> e_asg e = []) ->
  let h := add_state_before nid g s n b in
  (forall t, t <> n -> same_runs (fun _ => False) I g h t) /\ (forall st r st', (exists k, crun I h k n st r st') <-> exists k, crun I h k s st r st') /\
  g_start h = (if b then n else g_start g) /\ (forall e, In e (g_edges h) -> e_dst e = s -> e_src e = n).
Proof.
  intros nid I g s n b NS SN NA h. split; [|split; [|split]].
  - intros t N st r. split.
    + intros st1 (k & C). destruct (before_fwd nid I g s n NS b NA k t st r st1 C N) as (k' & C'). exists k', st1. auto.
    + intros st2 (k & C). destruct (before_bwd nid I g s n NS SN b NA k t st r st2 C N) as (k' & C'). exists k', st2. auto.
  - intros st r st'. split; intros (k & C).
    + apply (before_leave nid I g s n NS) in C as (k' & _ & C). eauto.
    + apply (before_enter nid I g s n) in C. eauto.
  - reflexivity.
  - intros e He D. apply before_in in He as [[_ He]|[(f & _ & _ & ->)| ->]]; [contradiction| |reflexivity]. simpl in D. congruence.
Qed.
Theorem C53_add_state_after_partial : forall nid I g s n, new_state g n -> s <> n -> (forall e, In e (out g s) -> e_asg e = []) -> g_ret g s = None ->
  let h := add_state_after nid g s n true in
  (forall t, t <> n -> same_runs (fun _ => False) I g h t) /\ g_start h = g_start g /\ (forall e, In e (g_edges h) -> e_src e = s -> e_dst e = n).
Proof.
  intros nid I g s n NS SN NA NR h. split; [|split].
  - intros t N st r. split.
    + intros st1 (k & C). destruct (after_fwd nid I g s n NS NA NR k t st r st1 C N) as (k' & C'). exists k', st1. auto.
    + intros st2 (k & C). destruct (after_bwd nid I g s n NS SN NA NR k t st r st2 C N) as (k' & C'). exists k', st2. auto.
  - reflexivity.
  - intros e He D. apply after_in in He as [[_ He]|[(f & _ & ->)| ->]]; [contradiction| |reflexivity]. simpl in D. congruence.
Qed.
(** add_loop: after the block of [s] the program runs the loop whose body the user put
    into the body state, and then leaves [s] as before; the other states behave as before. *)
Theorem C53_add_loop_partial : forall nid I g s it ini c u init final early head bod upd bb,
  NoDup [s; init; final; early; head; bod; upd] -> (forall n, In n [init; final; early; head; bod; upd] -> new_state g n) ->
  g_ret g s = None -> (forall e, In e (out g s) -> e_asg e = []) ->
  forall t st r st', ~ In t [init; final; early; head; bod; upd] ->
  (exists k, crun I (filled nid g s it ini c u init final early head bod upd bb) k t st r st') <->
  loop_run I g s (NLoop KFor it ini c u (SCons (NBlock bb) [] SNil)) t st r st'.
Proof.
  intros nid I g s it ini c u init final early head bod upd bb ND NS NR NA.
  assert (FR: fresh_all g s init final early head bod upd) by (split; assumption).
  set (h := filled nid g s it ini c u init final early head bod upd bb).
  assert (OLD: forall e, In e (g_edges g) -> ~ In (e_dst e) [init; final; early; head; bod; upd]).
  { intros e He J. destruct (NS _ J) as [_ Q]. destruct (Q e He). congruence. }
  intros t st r st' NT. split.
  - intros (k & C). revert t st r st' NT C. induction k as [k IH] using lt_wf_ind. intros t st r st' NT C. destruct (Nat.eq_dec t s) as [->|NE].
    + destruct (from_s_bwd nid I g s it ini c u init final early head bod upd bb FR k st r st' NR C) as (sta & stb & k2 & LT & Bk & RL & C2).
      apply (not_ret nid I g s it ini c u init final early head bod upd bb) in C2 as (k3 & t3 & st3 & -> & ST & C3); [|simpl; tauto].
      apply (final_step nid I g s it ini c u init final early head bod upd bb FR) in ST as (f & F1 & -> & F2 & ->).
      apply (L_next I g s _ s st sta stb f stb r st'); [exact Bk|rewrite Nat.eqb_refl; exact RL|exact F1|exact F2|rewrite (NA f F1); reflexivity|].
      apply (IH k3); [lia| |exact C3]. apply OLD. apply out_in in F1. tauto.
    + assert (NT': ~ In t [s; init; final; early; head; bod; upd]) by (intros [J|J]; [congruence|exact (NT J)]).
      destruct (same_blk nid I g s it ini c u init final early head bod upd bb t NT') as [SB SR].
      inversion C as [? ? ? ? O Bk Rt|k1 ? ? t1 st1 ? ? ST C1]; subst.
      * apply L_ret; [|exact NE|rewrite <- SB; exact Bk|rewrite <- SR; exact Rt].
        destruct (out g t) as [|e l] eqn:OO; [reflexivity|exfalso]. assert (J: In e (out h t)) by (apply (not_new_has nid I); [exact FR|exact NT'|rewrite OO; left; reflexivity]). rewrite O in J. destruct J.
      * inversion ST as [? ? sta e st2 He Bk T A]; subst. apply (not_new_has nid I) in He; [|exact FR|exact NT'].
        apply (L_next I g s _ t st sta sta e st1 r st'); [rewrite <- SB; exact Bk|apply Nat.eqb_neq in NE as ->; reflexivity|exact He|exact T|exact A|].
        apply (IH k1); [lia| |exact C1]. apply OLD. apply out_in in He. tauto.
  - intros R. revert NT. induction R as [t st st' r O NE Bk Rt|t st sta stb e st1 r st' Bk M He T A R IH]; intros NT.
    + assert (NT': ~ In t [s; init; final; early; head; bod; upd]) by (intros [J|J]; [congruence|exact (NT J)]).
      destruct (same_blk nid I g s it ini c u init final early head bod upd bb t NT') as [SB SR]. exists 0.
      apply C_ret; [|unfold h; rewrite SB; exact Bk|unfold h; rewrite SR; exact Rt].
      destruct (out h t) as [|e l] eqn:OO; [reflexivity|exfalso]. assert (J: In e (out g t)) by (apply (not_new_has nid I g s it ini c u init final early head bod upd bb FR t e NT'); fold h; rewrite OO; left; reflexivity). rewrite O in J. destruct J.
    + destruct IH as (k & C); [apply OLD; apply out_in in He; tauto|]. destruct (Nat.eqb_spec t s) as [->|NE].
      * rewrite (NA e He) in A. simpl in A. injection A as <-.
        assert (C1: crun I h (S k) final stb r st') by (eapply C_next; [|exact C]; apply final_step; [exact FR|]; exists e; auto).
        eapply from_s_fwd; [exact FR|exact Bk|exact M|exact C1].
      * subst stb. assert (NT': ~ In t [s; init; final; early; head; bod; upd]) by (intros [J|J]; [congruence|exact (NT J)]).
        destruct (same_blk nid I g s it ini c u init final early head bod upd bb t NT') as [SB SR].
        exists (S k). eapply C_next; [|exact C]. econstructor; [apply (not_new_has nid I); [exact FR|exact NT'|exact He]|unfold h; rewrite SB; exact Bk|exact T|exact A].
Qed.
(** 0: y = 1; goto 1; 1: return x *)
Definition c53_g : cfg := G 0 [go_ 0 0 1] (at_state [(0, [sets "y" 1])]) (returns 1).
(** for (i = 0; i < 3; i = i + 1) x = i, inserted after state 0 *)
Definition c53_h : cfg := filled (fun e => 10 * e_src e + e_dst e) c53_g 0 "i" (EInt 0) (CLt (ESym "i") (EInt 3)) (EAdd [ESym "i"; EInt 1]) 2 3 4 5 6 7
  [{| o_code := 0; o_ins := [ORead "i" []]; o_out := "x"; o_sub := [] |}].
Lemma c53_new n : In n [2; 3; 4; 5; 6; 7] -> new_state c53_g n.
Proof. intros H. apply new_state_dec. simpl in H. repeat (destruct H as [<-|H]; [reflexivity|]). destruct H. Qed.
Theorem C53_hypotheses : NoDup [0; 2; 3; 4; 5; 6; 7] /\ (forall n, In n [2; 3; 4; 5; 6; 7] -> new_state c53_g n) /\ g_ret c53_g 0 = None /\ (forall e, In e (out c53_g 0) -> e_asg e = []) /\
  (forall e, In e (inn c53_g 1) -> e_asg e = []) /\ exists n st', crun I0 c53_h n 0 st0 "x" st' /\ st' "x" [] = 2%Z /\ st' "i" [] = 3%Z /\ st' "y" [] = 1%Z.
Proof.
  split; [repeat constructor; simpl; intuition discriminate|]. split; [exact c53_new|]. split; [reflexivity|]. split; [intros e [<-|[]]; reflexivity|]. split; [intros e [<-|[]]; reflexivity|].
  destruct (xrun c53_h I0 40 0 st0) as [[r st']|] eqn:X; [|vm_compute in X; discriminate].
  destruct (xrun_ok _ _ _ _ _ _ _ X) as (n & C). exists n, st'. vm_compute in X. injection X as <- <-. split; [exact C|]. vm_compute. auto.
Qed.

(** The two graphs, each with at most one edge to take, end in different stores. *)
Definition diverges (g h : cfg) (s : nat) : Prop := exclusive g /\ exclusive h /\ exists n1 n2 st r st1 st2 x, crun I0 g n1 s st r st1 /\ crun I0 h n2 s st r st2 /\ st1 x [] <> st2 x [].
Lemma div g h s st r1 r st1 st2 x fuel : binary g = true -> binary h = true -> xrun g I0 fuel s st = Some (r1, st1) -> xrun h I0 fuel s st = Some (r, st2) -> r1 = r -> Z.eqb (st1 x []) (st2 x []) = false -> diverges g h s.
Proof.
  intros B1 B2 X1 X2 -> N. split; [apply binary_ok; exact B1|]. split; [apply binary_ok; exact B2|].
  destruct (xrun_ok _ _ _ _ _ _ _ X1) as (n1 & C1). destruct (xrun_ok _ _ _ _ _ _ _ X2) as (n2 & C2). exists n1, n2, st, r, st1, st2, x. split; [exact C1|]. split; [exact C2|]. apply Z.eqb_neq. exact N.
Qed.
(** 0: goto 1 with x = 5; 1: return x. The assignment is lost when a state is inserted
    before the target or after the source of the edge, or when a loop is added. *)
Definition c53_drop : cfg := G 0 [goa 0 0 1 [("x", EInt 5)]] (fun _ => []) (returns 1).
Theorem C53_add_state_before_refuted : new_state c53_drop 2 /\ diverges c53_drop (add_state_before (fun e => e_dst e) c53_drop 1 2 false) 0.
Proof. split; [apply new_state_dec; reflexivity|]. eapply (div _ _ _ st0 _ _ _ _ "x" 20); vm_compute; reflexivity. Qed.
Theorem C53_add_state_after_refuted : new_state c53_drop 2 /\ diverges c53_drop (add_state_after (fun e => e_dst e) c53_drop 0 2 true) 0.
Proof. split; [apply new_state_dec; reflexivity|]. eapply (div _ _ _ st0 _ _ _ _ "x" 20); vm_compute; reflexivity. Qed.
