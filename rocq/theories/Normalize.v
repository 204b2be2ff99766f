(** Loop normalization: model of
    sdfg/src/passes/structured_control_flow/loop_normalization.cpp. *)
From Verif Require Import Sym SymFacts SymFuns SymProofs1 SymProofs3 SymProofs4 IR IRFacts IRRefine PassCFG PassInline Subst TypesProofs Skew.

(** And/Or of the clauses (loop_normalization.cpp:30-38, 147-154) *)
Definition rebuild (N : list (list cond)) : cond :=
  fold_left (fun acc cl => sand acc (fold_left sor cl (CBool false))) N (CBool true).
Fixpoint mapO {A B} (f : A -> option B) (l : list A) : option (list B) :=
  match l with [] => Some [] | a :: l' => match f a, mapO f l' with Some b, Some m => Some (b :: m) | _, _ => None end end.

(** Step 2 on one literal (loop_normalization.cpp:69-145).  The literal is kept
    when the side with the loop variable is not affine; the code reads a null
    coefficient there if the side is a polynomial of degree 2 or more.
    [None]: exception of the integer division. *)
Definition norm_lit (st : Z) (i : string) (init : expr) (l : cond) : option cond :=
  match l with
  | CNe a b =>
      if uses a i && uses b i then Some l
      else
        let '(a, b) := if uses b i then (a, b) else (b, a) in
        if negb (uses b i) then Some l
        else match affine i b with
             | None => Some l
             | Some (c, k) =>
                 match sym_div (ssub a k) c with
                 | None => None
                 | Some r => Some (if st =? 1 then slt (ESym i) r else if st =? -1 then slt r (ESym i) else CNe (ESym i) r)
                 end
             end
  | CLt a (EMax [p; q]) =>
      if negb (expr_eqb a (ESym i)) then Some l
      else if expr_eqb p init then Some (slt (ESym i) q)
      else if expr_eqb q init then Some (slt (ESym i) p)
      else Some l
  | _ => Some l
  end.

(** every use of [i] in the body is in a memlet subset (loop_normalization.cpp:162-173) *)
Definition op_only (i : string) (o : op) : bool :=
  forallb (fun q => match q with OConst _ => true | ORead x _ => negb (String.eqb i x) end) (o_ins o) && negb (String.eqb i (o_out o)).
Fixpoint n_only (i : string) (n : node) : bool :=
  match n with
  | NBlock b => forallb (op_only i) b
  | NSeq s | NWhile s => s_only i s
  | NIf bs => b_only i bs
  | NLoop _ j init c u s => negb (String.eqb i j) && negb (uses init i) && negb (cuses c i) && negb (uses u i) && s_only i s
  | NReturn r => negb (String.eqb i r)
  | NBreak | NContinue => true
  end
with s_only (i : string) (s : seq) : bool :=
  match s with SNil => true
  | SCons n a r => n_only i n && forallb (fun xe => negb (String.eqb i (fst xe)) && negb (uses (snd xe) i)) a && s_only i r end
with b_only (i : string) (b : brs) : bool :=
  match b with BNil => true | BCons c s r => negb (cuses c i) && s_only i s && b_only i r end.

(** Step 3 (loop_normalization.cpp:182-219) *)
Definition shift_cond (i : string) (w : Z) (c : cond) (N : list (list cond)) : cond :=
  match N with
  | [[CLt a r]] => if expr_eqb a (ESym i) && negb (uses r i) then slt (ESym i) (ssub r (EInt w)) else csubs c i (sadd (ESym i) (EInt w))
  | _ => csubs c i (sadd (ESym i) (EInt w))
  end.
Definition shift (i : string) (init : expr) (c : cond) (u : expr) (N : list (list cond)) (body : seq) : node :=
  match init with
  | EInt w => if w =? 0 then NLoop KFor i init c u body
              else NLoop KFor i (EInt 0) (shift_cond i w c N) u (repl_seq i (sadd (ESym i) (EInt w)) body)
  | _ => NLoop KFor i init c u body
  end.
(** Step 4 (loop_normalization.cpp:220-257) *)
Definition rotate (i : string) (init : expr) (c : cond) (u : expr) (N : list (list cond)) (body : seq) : node :=
  match N with
  | [[CLt l r]] =>
      if expr_eqb r (ESym i) then
        let init' := sadd l (EInt 1) in
        NLoop KFor i init' (slt (ESym i) (sadd init (EInt 1))) (sadd (ESym i) (EInt 1)) (repl_seq i (ssub init (ssub (ESym i) init')) body)
      else NLoop KFor i init c u body
  | _ => NLoop KFor i init c u body
  end.

(** LoopNormalization::accept (loop_normalization.cpp:17-261); [A]: the
    assumptions at the loop.  [None]: an exception leaves the pass. *)
Definition normalize (fuel : nat) (A : assumptions) (n : node) : option node :=
  match n with
  | NLoop KFor i init c u body =>
      match cnf c with
      | None => Some n
      | Some N =>
          match mapO (mapO (simplify_cond fuel)) N with
          | None => None
          | Some N1 =>
              let c1 := rebuild N1 in
              let n1 := NLoop KFor i init c1 u body in
              match affine_int_coeffs u i A with
              | None => Some n1
              | Some (m, k) =>
                  match as_int m, as_int k with
                  | Some m, Some k =>
                      let st := swrap 32 k in
                      if negb (m =? 1) || (st =? 0) then Some n1
                      else
                        match mapO (mapO (norm_lit st i init)) N with
                        | None => None
                        | Some N2 =>
                            let c2 := rebuild N2 in
                            if negb (s_only i body) then Some (NLoop KFor i init c2 u body)
                            else match cnf c2 with
                                 | None => Some (NLoop KFor i init c2 u body)
                                 | Some N3 => Some (if 0 <? st then shift i init c2 u N3 body
                                                    else if st =? -1 then rotate i init c2 u N3 body
                                                    else NLoop KFor i init c2 u body)
                                 end
                        end
                  | _, _ => None
                  end
              end
          end
      end
  | _ => Some n
  end.

(* ---------------------------------------------------------------- *)
Lemma rebuild_val s N : forall a t, oandb (cev s a) (cnf_val s N) = Some t ->
  cev s (fold_left (fun acc cl => sand acc (fold_left sor cl (CBool false))) N a) = Some t.
Proof.
  induction N as [|cl N IH]; intros a t H; cbn [fold_left].
  - unfold cnf_val in H. cbn in H. destruct (cev s a); [|discriminate]. simpl in H. rewrite andb_true_r in H. exact H.
  - unfold cnf_val in H. cbn [map oands] in H. fold (cnf_val s N) in H.
    destruct (cev s a) as [x|] eqn:Ea; [|discriminate]. destruct (clause_val s cl) as [y|] eqn:Ec; [|discriminate]. destruct (cnf_val s N) as [w|] eqn:En; [|discriminate].
    apply IH. rewrite (cev_sand s a (fold_left sor cl (CBool false)) (x && y)).
    + simpl in *. rewrite <- H, andb_assoc. reflexivity.
    + rewrite Ea. rewrite (cev_fold_sor s cl (CBool false) y); [reflexivity|]. cbn [cev]. unfold clause_val in Ec. rewrite Ec. reflexivity.
Qed.
Lemma cev_rebuild s N t : cnf_val s N = Some t -> cev s (rebuild N) = Some t.
Proof. intros H. apply rebuild_val. rewrite H. reflexivity. Qed.

(** literal by literal *)
Lemma clause_val_map s f cl : forall cl' t, mapO f cl = Some cl' -> (forall l l' b, In l cl -> f l = Some l' -> cev s l = Some b -> cev s l' = Some b) ->
  clause_val s cl = Some t -> clause_val s cl' = Some t.
Proof.
  unfold clause_val. induction cl as [|l cl IH]; cbn [mapO]; intros cl' t E H V; [injection E as <-; exact V|].
  destruct (f l) as [l'|] eqn:El; [|discriminate]. destruct (mapO f cl) as [m|] eqn:Em; [|discriminate]. injection E as <-. cbn [map oors] in *.
  destruct (cev s l) as [x|] eqn:Ex; [|discriminate]. rewrite (H l l' x (or_introl eq_refl) El Ex).
  destruct (oors (map (cev s) cl)) as [y|] eqn:Ey; [|discriminate]. rewrite (IH m y eq_refl); auto. intros; eapply H; eauto. right; auto.
Qed.
Lemma cnf_val_map s f N : forall N' t, mapO (mapO f) N = Some N' -> (forall cl l l' b, In cl N -> In l cl -> f l = Some l' -> cev s l = Some b -> cev s l' = Some b) ->
  cnf_val s N = Some t -> cnf_val s N' = Some t.
Proof.
  unfold cnf_val. induction N as [|cl N IH]; cbn [mapO]; intros N' t E H V; [injection E as <-; exact V|].
  destruct (mapO f cl) as [cl'|] eqn:El; [|discriminate]. destruct (mapO (mapO f) N) as [M|] eqn:Em; [|discriminate]. injection E as <-. cbn [map oands] in *.
  destruct (clause_val s cl) as [x|] eqn:Ex; [|discriminate].
  rewrite (clause_val_map s f cl cl' x El) by (auto; intros; eapply H; eauto; left; reflexivity).
  destruct (oands (map (clause_val s) N)) as [y|] eqn:Ey; [|discriminate]. rewrite (IH M y eq_refl); auto. intros; eapply H; eauto. right; auto.
Qed.

(** what a defined formula says about its literals *)
Lemma cnf_defined s N t cl l : cnf_val s N = Some t -> In cl N -> In l cl -> exists b, cev s l = Some b.
Proof.
  unfold cnf_val. intros V Hcl Hl. destruct (oands_some_iff _ _ V) as [_ ND]. destruct (clause_val s cl) as [y|] eqn:E.
  - unfold clause_val in E. destruct (cev s l) as [b|] eqn:El; eauto. destruct (oors_some_iff _ _ E) as [_ ND']. elim ND'. rewrite <- El. apply in_map. exact Hl.
  - elim ND. rewrite <- E. apply in_map. exact Hcl.
Qed.
Lemma cnf_true s N l : cnf_val s N = Some true -> In [l] N -> cev s l = Some true.
Proof.
  unfold cnf_val. intros V Hcl. destruct (oands_some_iff _ _ V) as [F ND].
  assert (E: In (clause_val s [l]) (map (clause_val s) N)) by (apply in_map; exact Hcl). unfold clause_val in E at 1. cbn [map oors] in E.
  destruct (cev s l) as [[]|]; auto; simpl in E; [|tauto]. destruct F as [_ F]. discriminate (F E).
Qed.

(** A loop whose condition is replaced by one with the same value, at the index
    values that satisfy an invariant [P]. *)
Section CondChange.
  Variables (I : nat -> list Z -> option Z) (i : string) (c c' : cond) (u : expr) (body : seq) (s : env) (P : Z -> Prop) (H : list string).
  Hypothesis Wi : ~ In i (swrites body).
  Hypothesis Wh : forall x, In x H -> ~ In x (swrites body).
  Hypothesis Hc : forall a, (forall x, In x H -> x <> i -> a x [] = s x) -> P (a i []) -> forall b, cev (env_of a) c = Some b -> cev (env_of a) c' = Some b.
  Hypothesis Hu : forall a v, (forall x, In x H -> x <> i -> a x [] = s x) -> P (a i []) -> cev (env_of a) c = Some true -> (forall a1, (forall x, In x H -> x <> i -> a1 x [] = s x) -> a1 i [] = a i [] -> eval (env_of a1) u = Some v -> P v).
  Lemma cond_change a o a' : runl I i c u body a o a' -> (forall x, In x H -> x <> i -> a x [] = s x) -> P (a i []) -> runl I i c' u body a o a'.
  Proof.
    intros R. remember i as i0 eqn:Ei in R at 1. remember c as c0 eqn:Ec in R. remember u as u0 eqn:Eu in R. remember body as s0 eqn:Es in R. revert Ei Ec Eu Es.
    induction R as [i0 c0 u0 s0 st G|i0 c0 u0 s0 st o1 st1 v o0 st' G H0 H1 H2 R IH|i0 c0 u0 s0 st st' G H0|i0 c0 u0 s0 st r st' G H0]; intros Ei Ec Eu Es A Q; subst i0 c0 u0 s0;
      pose proof (Hc st A Q _ G) as G'.
    - apply R_lend; auto.
    - assert (A1: forall x, In x H -> x <> i -> st1 x [] = s x) by (intros x Hx Nx; rewrite (runs_writes I _ _ _ _ x [] H0 (Wh x Hx)); auto).
      eapply R_lnext; eauto. apply IH; auto.
      + intros x Hx Nx. rewrite IRFacts.wr_other; auto.
      + rewrite wr_same. eapply (Hu st v A Q G st1); eauto. apply (runs_writes I _ _ _ _ i [] H0 Wi).
    - apply R_lbreak; auto.
    - apply R_lret; auto.
  Qed.
End CondChange.

(** atoms of the clauses *)
Lemma catoms_list (l : list cond) x : In x (concat (map catoms l)) <-> exists d, In d l /\ In x (catoms d).
Proof. rewrite in_concat. split; [intros (q & Hq & Hx); apply in_map_iff in Hq as (d & <- & Hd); eauto|intros (d & Hd & Hx); exists (catoms d); split; auto using in_map]. Qed.
Lemma catoms_snot c x : In x (catoms (snot c)) -> In x (catoms c).
Proof.
  induction c using cond_ind'; cbn [snot catoms]; rewrite ?in_app_iff; try tauto;
  rewrite !catoms_list; intros (d & Hd & Hx); apply in_map_iff in Hd as (d' & <- & Hd); exists d'; split; auto; rewrite Forall_forall in H; auto.
Qed.
Lemma catoms_sor a b x : In x (catoms (sor a b)) -> In x (catoms a) \/ In x (catoms b).
Proof.
  unfold sor. set (l := filter _ _). assert (G: forall d, In d l -> In x (catoms d) -> In x (catoms a) \/ In x (catoms b)).
  { intros d Hd Hx. apply filter_In in Hd as [Hd _]. apply in_app_iff in Hd as [Hd|Hd]; [left|right].
    - destruct a; cbn [or_args] in Hd; try (destruct Hd as [<-|[]]; exact Hx). cbn [catoms]. apply catoms_list. eauto.
    - destruct b; cbn [or_args] in Hd; try (destruct Hd as [<-|[]]; exact Hx). cbn [catoms]. apply catoms_list. eauto. }
  clearbody l. destruct (_ || _); [intros []|]. destruct l as [|d [|d2 l]]; [intros []| |]; intros H.
  - eapply G; eauto. left; auto.
  - cbn [catoms] in H. apply catoms_list in H as (q & Hq & Hx). eapply G; eauto.
Qed.
Lemma catoms_sand a b x : In x (catoms (sand a b)) -> In x (catoms a) \/ In x (catoms b).
Proof.
  unfold sand. set (l := filter _ _). assert (G: forall d, In d l -> In x (catoms d) -> In x (catoms a) \/ In x (catoms b)).
  { intros d Hd Hx. apply filter_In in Hd as [Hd _]. apply in_app_iff in Hd as [Hd|Hd]; [left|right].
    - destruct a; cbn [and_args] in Hd; try (destruct Hd as [<-|[]]; exact Hx). cbn [catoms]. apply catoms_list. eauto.
    - destruct b; cbn [and_args] in Hd; try (destruct Hd as [<-|[]]; exact Hx). cbn [catoms]. apply catoms_list. eauto. }
  clearbody l. destruct (_ || _); [intros []|]. destruct l as [|d [|d2 l]]; [intros []| |]; intros H.
  - eapply G; eauto. left; auto.
  - cbn [catoms] in H. apply catoms_list in H as (q & Hq & Hx). eapply G; eauto.
Qed.
Definition natoms (N : list (list cond)) (x : string) : Prop := exists cl l, In cl N /\ In l cl /\ In x (catoms l).
Lemma natoms_app N M x : natoms (N ++ M) x -> natoms N x \/ natoms M x.
Proof. intros (cl & l & H & K & X). apply in_app_iff in H as [H|H]; [left|right]; exists cl, l; auto. Qed.
Lemma natoms_distribute N M x : natoms (distribute_or N M) x -> natoms N x \/ natoms M x.
Proof.
  intros (cl & l & H & K & X). unfold distribute_or in H. apply in_concat in H as (q & Hq & H). apply in_map_iff in Hq as (c1 & <- & H1). apply in_map_iff in H as (c2 & <- & H2).
  apply in_app_iff in K as [K|K]; [left; exists c1, l|right; exists c2, l]; auto.
Qed.
Lemma cnf_fuel_atoms n : forall c N, cnf_fuel n c = Some N -> forall x, natoms N x -> In x (catoms c).
Proof.
  induction n as [|n IH]; intros c N HN x Hx; [discriminate|].
  assert (Lit: forall c, Some [[c]] = Some N -> In x (catoms c)).
  { intros d [= <-]. destruct Hx as (cl & l & [<-|[]] & [<-|[]] & Hx). exact Hx. }
  destruct c; cbn [cnf_fuel] in HN; try (apply Lit; exact HN).
  - (* And *) cbn [catoms]. apply catoms_list. revert N HN Hx Lit. induction l as [|a l IHl]; cbn [fold_right]; intros N HN Hx Lit.
    + injection HN as <-. destruct Hx as (cl & l & [] & _).
    + destruct (cnf_fuel n a) as [p|] eqn:Ea; [|discriminate]. destruct (fold_right _ _ l) as [q|] eqn:El; [|discriminate]. injection HN as <-.
      apply natoms_app in Hx as [Hx|Hx]; [exists a; split; [left; auto|eapply IH; eauto]|].
      destruct (IHl q eq_refl Hx) as (d & Hd & Hx'); [|exists d; split; [right|]; auto].
      intros d [= Q]. subst q. destruct Hx as (cl & l0 & [<-|[]] & [<-|[]] & Hx). exact Hx.
  - (* Or *) destruct l as [|a l]; [discriminate|]. cbn [catoms]. apply catoms_list.
    destruct (cnf_fuel n a) as [p|] eqn:Ea.
    2:{ exfalso. clear - HN. induction l as [|d l IHl]; simpl in HN; [discriminate|auto]. }
    assert (G: forall l p N, fold_left (fun acc b => match acc, cnf_fuel n b with Some x, Some y => Some (distribute_or x y) | _, _ => None end) l (Some p) = Some N ->
      natoms N x -> natoms p x \/ exists d, In d l /\ In x (catoms d)).
    { clear - IH. induction l as [|b l IHl]; cbn [fold_left]; intros p N HN Hx; [injection HN as <-; auto|].
      destruct (cnf_fuel n b) as [q|] eqn:Eb; [|exfalso; clear - HN; induction l as [|d l IHl]; simpl in HN; [discriminate|auto]].
      destruct (IHl _ _ HN Hx) as [H|(d & Hd & H)]; [|right; exists d; split; [right|]; auto].
      apply natoms_distribute in H as [H|H]; auto. right. exists b. split; [left; auto|eapply IH; eauto]. }
    destruct (G _ _ _ HN Hx) as [H|(d & Hd & H)]; [exists a; split; [left; auto|eapply IH; eauto]|exists d; split; [right|]; auto].
  - (* Not *) cbn [catoms]. destruct c; try discriminate; try (apply (IH _ _ HN) in Hx; cbn [catoms] in *; rewrite ?in_app_iff in *; tauto).
    + destruct l as [|a0 [|a1 [|]]]; try discriminate. apply (IH _ _ HN), catoms_sor in Hx. cbn [catoms map concat]. rewrite !in_app_iff. destruct Hx as [Hx|Hx]; apply catoms_snot in Hx; tauto.
    + destruct l as [|a0 [|a1 [|]]]; try discriminate. apply (IH _ _ HN), catoms_sand in Hx. cbn [catoms map concat]. rewrite !in_app_iff. destruct Hx as [Hx|Hx]; apply catoms_snot in Hx; tauto.
Qed.

(** Step 2, one literal *)
Definition is_ne (i : string) (l : cond) : bool := match l with CNe a b => uses a i || uses b i | _ => false end.
Definition is_max (i : string) (init : expr) (l : cond) : bool :=
  match l with CLt a (EMax [p; q]) => expr_eqb a (ESym i) && (expr_eqb p init || expr_eqb q init) | _ => false end.
Definition lit_finite (l : cond) : bool := match l with CEq a b | CNe a b | CLt a b | CLe a b => no_inf a && no_inf b | _ => true end.

Lemma norm_ne st i init l l' s w : is_ne i l = true -> lit_finite l = true -> norm_lit st i init l = Some l' ->
  (forall v, cev (upd s i v) l = Some (negb (v =? w))) ->
  l' = l \/ forall v, cev (upd s i v) l' = Some (if st =? 1 then v <? w else if st =? -1 then w <? v else negb (v =? w)).
Proof.
  intros IN FN E V. destruct l as [| |a b| | | | |]; try discriminate. cbn [is_ne lit_finite norm_lit] in *. apply andb_true_iff in FN as [Fa Fb].
  destruct (uses a i && uses b i) eqn:UU; [left; congruence|].
  assert (G: forall a b L, no_inf a = true -> no_inf b = true -> uses a i = false -> (forall v, onegb (xeqb (ev (upd s i v) a) (ev (upd s i v) b)) = Some (negb (v =? w))) ->
    (if negb (uses b i) then Some L else match affine i b with None => Some L | Some (c, k) =>
       match sym_div (ssub a k) c with None => None | Some r => Some (if st =? 1 then slt (ESym i) r else if st =? -1 then slt r (ESym i) else CNe (ESym i) r) end end) = Some l' ->
    l' = L \/ forall v, cev (upd s i v) l' = Some (if st =? 1 then v <? w else if st =? -1 then w <? v else negb (v =? w))).
  { clear. intros a b L Fa Fb Ua V E. destruct (negb (uses b i)); [left; congruence|]. destruct (affine i b) as [[c k]|] eqn:Af; [|left; congruence].
    destruct (sym_div (ssub a k) c) as [r|] eqn:Ed; [|discriminate]. match type of E with Some ?z = _ => assert (E' : l' = z) by congruence; clear E; subst l' end. right.
    assert (Fin_a: exists x, forall v, ev (upd s i v) a = Fin x).
    { pose proof (V w) as Vw. destruct (no_inf_ev (upd s i w) a Fa) as [A1 A2]. destruct (ev (upd s i w) a) as [x| | |] eqn:Ea; try tauto; [|simpl in Vw; discriminate].
      exists x. intros v. rewrite <- Ea. rewrite (uses_false_agree a i s v Ua), (uses_false_agree a i s w Ua). reflexivity. }
    destruct Fin_a as (x & Hx).
    assert (Fin_b: forall v, exists y, ev (upd s i v) b = Fin y).
    { intros v. pose proof (V v) as Vv. rewrite Hx in Vv. destruct (no_inf_ev (upd s i v) b Fb) as [A1 A2]. destruct (ev (upd s i v) b) as [y| | |]; try tauto; [eauto|simpl in Vv; discriminate]. }
    destruct (Fin_b w) as (y & Hy).
    destruct (affine_recompose_value i b c k (upd s i w) y Af) as (cv & kv & Hc & Hk & Ey & Inv); [unfold eval; rewrite Hy; reflexivity|].
    assert (Bv: forall v, ev (upd s i v) b = Fin (cv * v + kv)).
    { intros v. destruct (Fin_b v) as (yv & Hyv). destruct (affine_recompose_value i b c k (upd s i v) yv Af) as (cv' & kv' & Hc' & Hk' & Eyv & Inv'); [unfold eval; rewrite Hyv; reflexivity|].
      rewrite Hyv. destruct (Inv v) as [I1 I2]. destruct (Inv' v) as [I1' I2'].
      assert (Q: forall e, eval (upd (upd s i w) i v) e = eval (upd (upd s i v) i v) e). { intros e. unfold eval. rewrite (ev_agree _ (upd (upd s i v) i v)); auto. intros z _. unfold upd. destruct (String.eqb i z); auto. }
      rewrite Q in I1, I2. rewrite I1 in I1'. rewrite I2 in I2'. injection I1' as <-. injection I2' as <-. rewrite Eyv. unfold upd. rewrite String.eqb_refl. reflexivity. }
    assert (Vx: forall v, negb (x =? cv * v + kv) = negb (v =? w)).
    { intros v. pose proof (V v) as Vv. rewrite Hx, Bv in Vv. cbn in Vv. congruence. }
    assert (X1: x = cv * w + kv). { pose proof (Vx w) as Q. rewrite Z.eqb_refl in Q. destruct (Z.eqb_spec x (cv * w + kv)); auto. discriminate. }
    assert (C0: cv <> 0). { intros ->. pose proof (Vx (w + 1)) as Q. destruct (Z.eqb_spec (w + 1) w); [lia|]. destruct (Z.eqb_spec x (0 * (w + 1) + kv)); [discriminate|]. lia. }
    assert (R: forall v, ev (upd s i v) r = Fin w).
    { intros v. rewrite (sym_div_ev (upd s i v) (ssub a k) c r (cv * w) cv Ed).
      - f_equal. rewrite Z.mul_comm. apply Z.quot_mul. exact C0.
      - rewrite ev_ssub, Hx. destruct (Inv v) as [_ I2]. apply eval_ev in I2.
        replace (ev (upd s i v) k) with (Fin kv). { cbn [xmul xadd]. apply f_equal. lia. } rewrite <- I2. apply ev_agree. intros z _. unfold upd. destruct (String.eqb i z); auto.
      - destruct (Inv v) as [I1 _]. apply eval_ev in I1. rewrite <- I1. apply ev_agree. intros z _. unfold upd. destruct (String.eqb i z); auto.
      - exact C0. }
    intros v. assert (Si: ev (upd s i v) (ESym i) = Fin v) by (cbn; unfold upd; rewrite String.eqb_refl; reflexivity).
    destruct (st =? 1); [|destruct (st =? -1)].
    - apply cev_slt. cbn [cev]. rewrite R, Si. cbn. f_equal. rewrite Z.leb_antisym, negb_involutive. reflexivity.
    - apply cev_slt. cbn [cev]. rewrite R, Si. cbn. f_equal. rewrite Z.leb_antisym, negb_involutive. reflexivity.
    - cbn [cev]. rewrite R, Si. reflexivity. }
  destruct (uses b i) eqn:Ub.
  - destruct (uses a i) eqn:Ua.
    + discriminate.
    + apply (G a b (CNe a b) Fa Fb Ua V). exact E.
  - apply (G b a (CNe a b) Fb Fa Ub); [|exact E]. intros v. rewrite <- (V v). cbn [cev]. f_equal. destruct (ev (upd s i v) a), (ev (upd s i v) b); try reflexivity. cbn. f_equal. apply Z.eqb_sym.
Qed.

Lemma norm_max st i init l l' s v x : is_max i init l = true -> norm_lit st i init l = Some l' ->
  eval (upd s i v) init = Some x -> x <= v -> forall b, cev (upd s i v) l = Some b -> cev (upd s i v) l' = Some b.
Proof.
  intros M E X Le b B. apply eval_ev in X. destruct l as [| | |a r| | | |]; try discriminate. destruct r as [ | | | | | | |[|p [|q [|]]]| | | | | | |]; try discriminate.
  cbn [is_max norm_lit] in *. apply andb_true_iff in M as [M1 M2]. rewrite M1 in E. cbn [negb] in E. apply expr_eqb_eq in M1. subst a.
  assert (Si: ev (upd s i v) (ESym i) = Fin v) by (cbn; unfold upd; rewrite String.eqb_refl; reflexivity).
  assert (G: forall z, cev (upd s i v) (CLt (ESym i) (EMax [p; q])) = Some b -> (p = init /\ z = q) \/ (q = init /\ z = p) -> cev (upd s i v) (slt (ESym i) z) = Some b).
  { clear E. intros z Q D. apply cev_slt. cbn [cev] in *. rewrite Si in *. cbn [ev map xmaxl] in Q.
    assert (exists m, xmax (ev (upd s i v) p) (ev (upd s i v) q) = m /\ (m = xmax (Fin x) (ev (upd s i v) z) \/ m = xmax (ev (upd s i v) z) (Fin x))) as (m & Em & Hm).
    { eexists. split; [reflexivity|]. destruct D as [[-> ->]|[-> ->]]; rewrite X; auto. }
    rewrite Em in Q. clear Em B. destruct (ev (upd s i v) z) as [y| | |]; destruct Hm as [->| ->]; cbn in Q |- *; try discriminate; auto.
    all: rewrite <- Q; repeat match goal with |- context [?a <=? ?b] => destruct (Z.leb_spec a b) end; try lia; auto. }
  destruct (expr_eqb p init) eqn:Ep; [apply expr_eqb_eq in Ep; injection E as <-; apply G; auto|].
  destruct (expr_eqb q init) eqn:Eq; [apply expr_eqb_eq in Eq; injection E as <-; apply G; auto|discriminate].
Qed.
Lemma norm_same st i init l l' : is_ne i l = false -> is_max i init l = false -> norm_lit st i init l = Some l' -> l' = l.
Proof.
  destruct l as [| |a b|a r| | | |]; cbn [is_ne is_max norm_lit]; intros N M E; try congruence.
  - apply orb_false_iff in N as [N1 N2]. rewrite N1, N2 in E. cbn in E. rewrite N1 in E. cbn in E. congruence.
  - destruct r as [ | | | | | | |[|p [|q [|]]]| | | | | | |]; try congruence. destruct (expr_eqb a (ESym i)); cbn in *; [|congruence]. apply orb_false_iff in M as [M1 M2]. rewrite M1, M2 in E. congruence.
Qed.

Lemma upd_self (a : store) i x : upd (env_of a) i (a i []) x = env_of a x.
Proof. unfold upd, env_of. destruct (String.eqb_spec i x) as [<-|]; auto. Qed.
Lemma cev_self (a : store) i c : cev (upd (env_of a) i (a i [])) c = cev (env_of a) c.
Proof. apply cev_agree. intros x _. apply upd_self. Qed.

Section Step2.
  Variables (I : nat -> list Z -> option Z) (i : string) (init : expr) (c : cond) (u : expr) (body : seq) (N N2 : list (list cond)) (s : env) (st v0 : Z).
  Hypothesis EN : cnf c = Some N.
  Hypothesis EN2 : mapO (mapO (norm_lit st i init)) N = Some N2.
  Hypothesis Wi : ~ In i (swrites body).
  Hypothesis Wc : forall x, In x (catoms c) -> ~ In x (swrites body).
  Hypothesis FI : forall cl l, In cl N -> In l cl -> lit_finite l = true.
  Hypothesis ST : forall t, eval t u = Some (t i + st).
  Hypothesis NE : forall cl l, In cl N -> In l cl -> is_ne i l = true -> exists w, (forall v, cev (upd s i v) l = Some (negb (v =? w))) /\
    (st = 1 -> cl = [l] /\ v0 <= w) /\ (st = -1 -> cl = [l] /\ w <= v0).
  Hypothesis MX : forall cl l, In cl N -> In l cl -> is_max i init l = true -> 0 < st /\ (forall x, In x (atoms init) -> x <> i /\ ~ In x (swrites body)).
  Hypothesis V0 : eval s init = Some v0.
  Let hasmax := existsb (existsb (is_max i init)) N.
  Let H := catoms c ++ (if hasmax then atoms init else []).
  Let P (v : Z) : Prop := (forall cl l w, In cl N -> In l cl -> is_ne i l = true -> (forall z, cev (upd s i z) l = Some (negb (z =? w))) -> (st = 1 -> v <= w) /\ (st = -1 -> w <= v)) /\ (0 < st -> v0 <= v).
  Lemma lit_atoms cl l x : In cl N -> In l cl -> In x (catoms l) -> In x (catoms c).
  Proof. intros H1 H2 H3. eapply cnf_fuel_atoms; [exact EN|]. exists cl, l. auto. Qed.
  Lemma hasmax_true cl l : In cl N -> In l cl -> is_max i init l = true -> hasmax = true.
  Proof. intros H1 H2 H3. apply existsb_exists. exists cl. split; auto. apply existsb_exists. eauto. Qed.
  Lemma step2 a o a' : runl I i c u body a o a' -> (forall x, x <> i -> a x [] = s x) -> a i [] = v0 -> runl I i (rebuild N2) u body a o a'.
  Proof.
    intros R A Ai. apply (cond_change I i c (rebuild N2) u body s P H); auto.
    - intros x Hx. unfold H in Hx. apply in_app_iff in Hx as [Hx|Hx]; [apply Wc; auto|].
      destruct hasmax eqn:HM; [|elim Hx]. apply existsb_exists in HM as (cl & Hcl & HM). apply existsb_exists in HM as (l & Hl & HM). destruct (MX cl l Hcl Hl HM) as [_ M]. apply (M x Hx).
    - intros b Hb [P1 P2] q Q. apply (cnf_fuel_sound (env_of b) _ c N _ EN) in Q. apply cev_rebuild.
      eapply cnf_val_map; [exact EN2| |exact Q]. clear q Q. intros cl l l' q Hcl Hl El Ev.
      assert (Sl: forall v, cev (upd (env_of b) i v) l = cev (upd s i v) l).
      { intros v. apply cev_agree. intros x Hx. unfold upd. destruct (String.eqb_spec i x) as [|Nx]; auto. apply Hb; auto. unfold H. apply in_or_app. left. eapply lit_atoms; eauto. }
      destruct (is_ne i l) eqn:IN.
      + destruct (NE cl l Hcl Hl IN) as (w & W1 & _). destruct (norm_ne st i init l l' (env_of b) w IN (FI cl l Hcl Hl) El) as [->|G]; [intros v; rewrite Sl; auto|exact Ev|].
        rewrite <- cev_self with (i := i). rewrite G. rewrite <- cev_self with (i := i), Sl, W1 in Ev. rewrite <- Ev. f_equal.
        destruct (P1 cl l w Hcl Hl IN W1) as [Q1 Q2].
        destruct (Z.eqb_spec st 1) as [E1|_]; [|destruct (Z.eqb_spec st (-1)) as [E2|_]; [|reflexivity]].
        * specialize (Q1 E1). destruct (Z.ltb_spec (b i []) w), (Z.eqb_spec (b i []) w); simpl; lia || reflexivity.
        * specialize (Q2 E2). destruct (Z.ltb_spec w (b i [])), (Z.eqb_spec (b i []) w); simpl; lia || reflexivity.
      + destruct (is_max i init l) eqn:IM; [|rewrite (norm_same _ _ _ _ _ IN IM El); exact Ev].
        destruct (MX cl l Hcl Hl IM) as [Pos M]. rewrite <- cev_self with (i := i) in *.
        apply (norm_max st i init l l' (env_of b) (b i []) v0 IM El); auto.
        rewrite <- V0. unfold eval. rewrite (ev_agree _ s); auto. intros x Hx. unfold upd. destruct (String.eqb_spec i x) as [<-|Nx]; [elim (proj1 (M i Hx)); reflexivity|].
        apply Hb; auto. unfold H. rewrite (hasmax_true cl l Hcl Hl IM). apply in_or_app. auto.
    - intros b v Hb [P1 P2] Q b1 Hb1 E1 Eu. rewrite ST in Eu. assert (v = b i [] + st) as -> by (unfold env_of in Eu; rewrite E1 in Eu; congruence). split; [|intros; specialize (P2 ltac:(auto)); lia].
      intros cl l w Hcl Hl IN W. destruct (P1 cl l w Hcl Hl IN W) as [Q1 Q2]. destruct (NE cl l Hcl Hl IN) as (w' & _ & N1 & N2').
      apply (cnf_fuel_sound (env_of b) _ c N _ EN) in Q.
      assert (T: cl = [l] -> b i [] <> w).
      { intros ->. pose proof (cnf_true _ _ _ Q Hcl) as T. rewrite <- cev_self with (i := i) in T.
        assert (Sl: cev (upd (env_of b) i (b i [])) l = cev (upd s i (b i [])) l).
        { apply cev_agree. intros x Hx. unfold upd. destruct (String.eqb_spec i x) as [|Nx]; auto. apply Hb; auto. unfold H. apply in_or_app. left. eapply lit_atoms; eauto. }
        rewrite Sl, W in T. destruct (Z.eqb_spec (b i []) w); [discriminate|auto]. }
      split; intros E.
      + specialize (T (proj1 (N1 E))). specialize (Q1 E). lia.
      + specialize (T (proj1 (N2' E))). specialize (Q2 E). lia.
    - rewrite Ai. split; [|lia]. intros cl l w Hcl Hl IN W. destruct (NE cl l Hcl Hl IN) as (w' & W' & N1 & N2').
      assert (w' = w). { pose proof (W w) as E1. rewrite W' in E1. rewrite Z.eqb_refl in E1. destruct (Z.eqb_spec w w'); [auto|discriminate]. } subst w'.
      split; intros E; [apply N1|apply N2']; exact E.
  Qed.
End Step2.

(** what [s_only] gives *)
Lemma only_free i : (forall n, n_only i n = true -> ~ In i (nwrites n) /\ ~ In i (ndata n)) /\
  (forall n, s_only i n = true -> ~ In i (swrites n) /\ ~ In i (sdata n)) /\ (forall n, b_only i n = true -> ~ In i (bwrites n) /\ ~ In i (bdata n)).
Proof.
  apply ir_mind; cbn [n_only s_only b_only nwrites swrites bwrites ndata sdata bdata]; intros;
    repeat match goal with H : _ && _ = true |- _ => apply andb_true_iff in H as [? ?] | H : negb _ = true |- _ => apply negb_true_iff in H end.
  - unfold block_data. induction b as [|o b IH]; cbn [map concat forallb] in *; [simpl; tauto|]. apply andb_true_iff in H as [H1 H2]. destruct (IH H2) as [I1 I2].
    unfold op_only in H1. apply andb_true_iff in H1 as [O1 O2]. apply negb_true_iff in O2. apply String.eqb_neq in O2. split; [simpl; intuition|]. rewrite in_app_iff. intros [Q|Q]; [|tauto].
    apply in_concat in Q as (l & Hl & Q). apply in_map_iff in Hl as (p & <- & Hp). rewrite forallb_forall in O1. specialize (O1 p Hp). destruct p as [z|x sub]; [elim Q|]. simpl in Q. destruct Q as [->|[]]. rewrite String.eqb_refl in O1. discriminate.
  - auto.
  - auto.
  - auto.
  - destruct (H ltac:(assumption)) as [I1 I2]. split; auto. simpl. intros [Q|Q]; [|tauto]. subst. rewrite String.eqb_refl in *. discriminate.
  - simpl; tauto.
  - simpl; tauto.
  - split; [simpl; tauto|]. simpl. intros [Q|[]]. subst. rewrite String.eqb_refl in *. discriminate.
  - simpl; tauto.
  - destruct (H ltac:(assumption)) as [I1 I2]. destruct (H0 ltac:(assumption)) as [I3 I4]. rewrite !in_app_iff. split; [|tauto]. intros [Q|[Q|Q]]; try tauto.
    apply in_map_iff in Q as ([x d] & <- & Hx). match goal with K : forallb _ _ = true |- _ => rewrite forallb_forall in K; specialize (K _ Hx) end. simpl in *. rewrite String.eqb_refl in *. discriminate.
  - simpl; tauto.
  - destruct (H ltac:(assumption)) as [I1 I2]. destruct (H0 ltac:(assumption)) as [I3 I4]. rewrite !in_app_iff. tauto.
Qed.

(** Step 3 *)
Lemma ssub_neg i w : ssub (ESym i) (EInt (- w)) = sadd (ESym i) (EInt w).
Proof.
  unfold ssub. replace (smul (EInt (-1)) (EInt (- w))) with (EInt w); [reflexivity|].
  unfold smul, smul_list. simpl. apply f_equal. rewrite Z.mul_1_r. destruct w; reflexivity.
Qed.
Lemma shift_run I i w c u N body k a o a' : cnf c = Some N -> ~ In i (swrites body) -> ~ In i (sdata body) -> (forall t, eval t u = Some (t i + k)) ->
  run I (NLoop KFor i (EInt w) c u body) a o a' -> exists b', run I (shift i (EInt w) c u N body) a o b' /\ forall x j, x <> i -> b' x j = a' x j.
Proof.
  intros EN Wi D U R. unfold shift. destruct (w =? 0); [exists a'; split; auto|].
  inversion R; subst. assert (RL : runl I i c u body (wr a i [] v) o a') by assumption.
  assert (v = w). { match goal with H : eval _ (EInt w) = Some v |- _ => unfold eval in H; cbn in H; congruence end. } subst v. rewrite <- ssub_neg.
  destruct (shifted_loop_gen I i (EInt (- w)) u body) with (d := - w) (c := c) (c' := shift_cond i w c N) (a := wr a i [] w) (o := o) (a' := a') (b := wr a i [] 0) as (b' & Rb & S); auto.
  - intros x Hx. split; [intros ->; tauto|intros []].
  - intros s v w0 d. rewrite !U. unfold upd. rewrite String.eqb_refl. intros [= <-]. apply f_equal. lia.
  - intros x y q S V. pose proof (cnf_fuel_sound (env_of x) _ c N _ EN V) as Q.
    assert (G: cev (env_of y) (csubs c i (sadd (ESym i) (EInt w))) = Some q). { rewrite <- ssub_neg. rewrite (sv_cev i _ x y c); [exact V|]. eapply shifted_sv; eauto. }
    unfold shift_cond. destruct N as [|[|[| | |l r| | | |] [|]] [|]]; try exact G. destruct (expr_eqb l (ESym i) && negb (uses r i)) eqn:C; [|exact G].
    apply andb_true_iff in C as [C1 C2]. apply expr_eqb_eq in C1. subst l. apply negb_true_iff in C2. apply cev_slt.
    assert (Q' : cev (env_of x) (CLt (ESym i) r) = Some q). { unfold cnf_val, clause_val in Q. cbn [map oands oors] in Q. destruct (cev (env_of x) (CLt (ESym i) r)); [|discriminate]. cbn in Q. rewrite orb_false_r, andb_true_r in Q. exact Q. }
    clear Q G. destruct S as (S1 & _ & S3).
    assert (Er: ev (env_of y) r = ev (env_of x) r).
    { transitivity (ev (upd (env_of y) i (x i [])) r); [symmetry; apply uses_false_agree; exact C2|]. apply ev_agree. intros z _. unfold upd, env_of. destruct (String.eqb_spec i z) as [<-|Nz]; auto. }
    cbn [cev] in *. rewrite ev_ssub, Er. replace (ev (env_of y) (ESym i)) with (Fin (x i [] + - w)) by (cbn; unfold env_of; rewrite S3; reflexivity).
    change (ev (env_of x) (ESym i)) with (Fin (x i [])) in Q'. destruct (ev (env_of x) r) as [z| | |]; cbn [ev xmul xadd] in *; cbn in Q' |- *; try discriminate; auto.
    rewrite <- Q'. apply f_equal. destruct (Z.leb_spec z (x i [])), (Z.leb_spec (z + match w with 0 => 0 | Z.pos y' => Z.neg y' | Z.neg y' => Z.pos y' end) (x i [] + - w)); auto; destruct w; lia.
  - split; [|split; [reflexivity|]]. { intros x j Nx. rewrite !IRFacts.wr_other; auto. } rewrite !wr_same. lia.
  - exists b'. split; [|intros x j Nx; apply S; exact Nx]. econstructor; [reflexivity|]. exact Rb.
Qed.

(** Step 4 *)
Section Rotate.
  Variables (I : nat -> list Z -> option Z) (i : string) (init l : expr) (c : cond) (u : expr) (body : seq).
  Let init' := sadd l (EInt 1).
  Let e := ssub init (ssub (ESym i) init').
  Let c' := slt (ESym i) (sadd init (EInt 1)).
  Let u' := sadd (ESym i) (EInt 1).
  Hypothesis EN : cnf c = Some [[CLt l (ESym i)]].
  Hypothesis Wi : ~ In i (swrites body).
  Hypothesis D : ~ In i (sdata body).
  Hypothesis Q1 : forall x, In x (atoms init) -> x <> i /\ ~ In x (swrites body).
  Hypothesis Q2 : forall x, In x (atoms init') -> x <> i /\ ~ In x (swrites body).
  Hypothesis FI : no_inf init' = true.
  Hypothesis ST : forall t, eval t u = Some (t i - 1).
  Definition mirrored (v0 w : Z) (a b : store) : Prop :=
    (forall x j, x <> i -> b x j = a x j) /\ eval (env_of b) init = Some v0 /\ eval (env_of b) init' = Some (w + 1) /\ b i [] = v0 + w + 1 - a i [].
  Lemma agree_eval (a b : store) d : (forall x, In x (atoms d) -> b x [] = a x []) -> eval (env_of b) d = eval (env_of a) d.
  Proof. intros H. unfold eval. rewrite (ev_agree _ (env_of a)); auto. Qed.
  Lemma mir_sv v0 w a b : mirrored v0 w a b -> same_value i e a b.
  Proof.
    intros (A & B & C & E). split; auto. unfold e. rewrite (eval_ssub _ init (ssub (ESym i) init') v0 (b i [] - (w + 1))); auto; [f_equal; lia|].
    apply eval_ssub; auto.
  Qed.
  Lemma mir_keeps : keeps i e (swrites body).
  Proof.
    intros x Hx. split; [intros ->; auto|]. intros H. apply atoms_ssub in H as [H|H]; [apply (Q1 x H); exact Hx|].
    apply atoms_ssub in H as [[<-|[]]|H]; [auto|]. apply (Q2 x H). exact Hx.
  Qed.
  Lemma mir_body v0 w a b o a' : mirrored v0 w a b -> runs I body a o a' -> exists b', runs I (repl_seq i e body) b o b' /\ mirrored v0 w a' b'.
  Proof.
    intros S R. destruct (proj1 (proj2 (subst_sim I i e)) _ _ _ _ R b mir_keeps D (mir_sv v0 w a b S)) as (b' & Rb & V1 & V2).
    exists b'. split; auto. destruct S as (A & B & C & E).
    assert (K: forall d, (forall x, In x (atoms d) -> x <> i /\ ~ In x (swrites body)) -> eval (env_of b') d = eval (env_of b) d).
    { intros d Hd. apply agree_eval. intros x Hx. destruct (Hd x Hx) as [N1 N2]. rewrite V1, A by auto. apply (runs_writes I _ _ _ _ x [] R N2). }
    pose proof (K init Q1) as K1. pose proof (K init' Q2) as K2. rewrite B in K1. rewrite C in K2.
    split; auto. split; auto. split; auto. unfold e in V2.
    rewrite (eval_ssub _ init (ssub (ESym i) init') v0 (b' i [] - (w + 1)) K1) in V2; [injection V2; lia|]. apply eval_ssub; auto.
  Qed.
  Lemma mir_wr v0 w a b v : mirrored v0 w a b -> mirrored v0 w (wr a i [] v) (wr b i [] (v0 + w + 1 - v)).
  Proof.
    intros (A & B & C & E). split; [|split; [|split]].
    - intros x k N. rewrite !IRFacts.wr_other; auto.
    - rewrite <- B. apply agree_eval. intros x Hx. rewrite IRFacts.wr_other; auto. left. intros ->. elim (proj1 (Q1 x Hx)); auto.
    - rewrite <- C. apply agree_eval. intros x Hx. rewrite IRFacts.wr_other; auto. left. intros ->. elim (proj1 (Q2 x Hx)); auto.
    - rewrite !wr_same. reflexivity.
  Qed.
  Lemma lhs_val s w : eval s init' = Some w -> ev s l = Fin (w - 1).
  Proof.
    intros H. apply eval_ev in H. unfold init' in H. rewrite ev_sadd in H. cbn [ev] in H. destruct (ev s l); cbn in H; try discriminate. injection H as <-. f_equal. lia.
  Qed.
  Lemma lit_val s q : cev s c = Some q -> cev s (CLt l (ESym i)) = Some q.
  Proof.
    intros V. pose proof (cnf_fuel_sound s _ c _ _ EN V) as Q. unfold cnf_val, clause_val in Q. cbn [map oands oors] in Q. destruct (cev s (CLt l (ESym i))); [|discriminate]. cbn in Q. rewrite orb_false_r, andb_true_r in Q. exact Q.
  Qed.
  Lemma mir_cond v0 w a b q : mirrored v0 w a b -> cev (env_of a) c = Some q -> cev (env_of b) c' = Some q.
  Proof.
    intros (A & B & C & E) V. apply lit_val in V. cbn [cev] in V.
    assert (Ca: eval (env_of a) init' = Some (w + 1)) by (rewrite <- C; symmetry; apply agree_eval; intros x Hx; apply A; apply (Q2 x Hx)).
    rewrite (lhs_val _ _ Ca) in V. unfold c'. apply cev_slt. cbn [cev]. rewrite ev_sadd. apply eval_ev in B. rewrite B. cbn [ev xadd] in *. unfold env_of in *. rewrite E. cbn in V |- *. rewrite <- V. apply f_equal. apply f_equal.
    destruct (Z.leb_spec (a i []) (w + 1 - 1)), (Z.leb_spec (v0 + 1) (v0 + w + 1 - a i [])); auto; lia.
  Qed.
  Lemma mir_loop v0 w a o a' : runl I i c u body a o a' -> forall b, mirrored v0 w a b -> exists b', runl I i c' u' (repl_seq i e body) b o b' /\ mirrored v0 w a' b'.
  Proof.
    intros R. remember i as i0 eqn:Ei in R at 1. remember c as c0 eqn:Ec in R. remember u as u0 eqn:Eu in R. remember body as s0 eqn:Es in R. revert Ei Ec Eu Es.
    induction R as [i0 c0 u0 s0 st H|i0 c0 u0 s0 st o1 st1 v o0 st' H H0 H1 H2 R IH|i0 c0 u0 s0 st st' H H0|i0 c0 u0 s0 st r st' H H0]; intros Ei Ec Eu Es b S; subst i0 c0 u0 s0;
      pose proof (mir_cond v0 w st b _ S H) as Hc.
    - exists b. split; auto. apply R_lend. exact Hc.
    - destruct (mir_body v0 w st b o1 st1 S H0) as (b1 & R1 & S1). rewrite ST in H2. assert (Ev : v = st1 i [] - 1) by (unfold env_of in H2; congruence).
      destruct (IH eq_refl eq_refl eq_refl eq_refl (wr b1 i [] (v0 + w + 1 - v)) (mir_wr _ _ _ _ _ S1)) as (b2 & R2 & S2).
      exists b2. split; auto. eapply R_lnext; eauto. unfold u'. destruct S1 as (_ & _ & _ & S1).
      replace (v0 + w + 1 - v) with (b1 i [] + 1) by lia. apply eval_sadd; reflexivity.
    - destruct (mir_body v0 w st b _ st' S H0) as (b1 & R1 & S1). exists b1. split; auto. apply R_lbreak; auto.
    - destruct (mir_body v0 w st b _ st' S H0) as (b1 & R1 & S1). exists b1. split; auto. apply R_lret; auto.
  Qed.
  Lemma rotate_run a o a' : run I (NLoop KFor i init c u body) a o a' ->
    exists b', run I (NLoop KFor i init' c' u' (repl_seq i e body)) a o b' /\ forall x j, x <> i -> b' x j = a' x j.
  Proof.
    intros R. inversion R; subst. assert (RL : runl I i c u body (wr a i [] v) o a') by assumption. assert (Ev : eval (env_of a) init = Some v) by assumption.
    assert (exists w, eval (env_of (wr a i [] v)) init' = Some (w + 1)) as (w & W).
    { assert (exists q, cev (env_of (wr a i [] v)) c = Some q) as (q & Q) by (inversion RL; subst; eauto). apply lit_val in Q.
      set (s := env_of (wr a i [] v)) in *. destruct (no_inf_ev s init' FI) as [F1 F2]. unfold init' in *. rewrite ev_sadd in F1, F2. unfold eval. rewrite ev_sadd. cbn [ev cev] in *.
      destruct (ev s l) as [z| | |]; cbn in *; try tauto; try discriminate. exists z. reflexivity. }
    assert (Wa: eval (env_of a) init' = Some (w + 1)).
    { rewrite <- W. symmetry. apply agree_eval. intros x Hx. rewrite IRFacts.wr_other; auto. left. intros ->. elim (proj1 (Q2 x Hx)); auto. }
    destruct (mir_loop v w _ _ _ RL (wr a i [] (w + 1))) as (b' & Rb & S).
    - split; [|split; [|split]].
      + intros x j N. rewrite !IRFacts.wr_other; auto.
      + rewrite <- Ev. apply agree_eval. intros x Hx. rewrite IRFacts.wr_other; auto. left. intros ->. elim (proj1 (Q1 x Hx)); auto.
      + rewrite <- Wa. apply agree_eval. intros x Hx. rewrite IRFacts.wr_other; auto. left. intros ->. elim (proj1 (Q2 x Hx)); auto.
      + rewrite !wr_same. lia.
    - exists b'. split; [|intros x j N; apply S; exact N]. econstructor; eauto.
  Qed.
End Rotate.
