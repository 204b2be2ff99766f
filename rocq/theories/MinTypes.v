(** Removing 32-bit truncations of values in the range of int.

    Modelled: sdfg/src/passes/symbolic/type_minimization.cpp:13-131 (is_safe_trunc, the
    accept methods for blocks and for loops). Simplified: SymEngine::subs does not simplify
    the expressions it rebuilds; is_true of a comparison of a number or an infinity with a
    number is decided, of anything else it is false; the order in which the replacements are
    found is that of the memlets and of their subexpressions (in the code, the order of a
    hash map; [minimize_any_order] covers all orders). *)
From Coq Require Import String List ZArith Bool Lia.
From Verif Require Import Sym SymFacts SymFuns SymProofs1 SymProofs2 IR IRFacts Assum AssumProofs Ranges.
Import ListNotations.
Open Scope string_scope.
Open Scope list_scope.
Open Scope Z_scope.

(** ** type_minimization.cpp:16-43 *)
Definition is_ge (e : expr) (z : Z) : bool := match e with EInt n => z <=? n | EInf => true | _ => false end.
Definition is_le (e : expr) (z : Z) : bool := match e with EInt n => n <=? z | ENegInf => true | _ => false end.
Definition is_safe_trunc (A : assumptions) (e : expr) : bool :=
  match minimum_new [] A true e with
  | None => false
  | Some mini => if is_ge mini 0 then match maximum_new [] A false e with None => false | Some maxi => is_le maxi (2 ^ 31 - 1) end else false
  end.

(** symbolic::find<FunctionSymbol>, 55-57, restricted to trunc_i32: their arguments *)
Fixpoint truncs (e : expr) : list expr :=
  match e with
  | EInt _ | EInf | ENegInf | ESym _ => []
  | EAdd l | EMul l | EMax l | EMin l => concat (map truncs l)
  | EPow a _ | EIabs a | EZext a => truncs a
  | ETrunc a => a :: truncs a
  | EIdiv a b | EImod a b | ECeilDiv a b => truncs a ++ truncs b
  end.
Fixpoint ctruncs (c : cond) : list expr :=
  match c with
  | CBool _ => []
  | CEq a b | CNe a b | CLt a b | CLe a b => truncs a ++ truncs b
  | CAnd l | COr l => concat (map ctruncs l)
  | CNot c => ctruncs c
  end.
(** symbolic::subs(dim, trunc_i32(a), a), 84 and 122 *)
Fixpoint untrunc (a e : expr) : expr :=
  if expr_eqb e (ETrunc a) then a else
  match e with
  | EInt _ | EInf | ENegInf | ESym _ => e
  | EAdd l => EAdd (map (untrunc a) l)
  | EMul l => EMul (map (untrunc a) l)
  | EMax l => EMax (map (untrunc a) l)
  | EMin l => EMin (map (untrunc a) l)
  | EPow b n => EPow (untrunc a b) n
  | EIabs b => EIabs (untrunc a b)
  | EZext b => EZext (untrunc a b)
  | ETrunc b => ETrunc (untrunc a b)
  | EIdiv b c => EIdiv (untrunc a b) (untrunc a c)
  | EImod b c => EImod (untrunc a b) (untrunc a c)
  | ECeilDiv b c => ECeilDiv (untrunc a b) (untrunc a c)
  end.
Fixpoint cuntrunc (a : expr) (c : cond) : cond :=
  match c with
  | CBool _ => c
  | CEq x y => CEq (untrunc a x) (untrunc a y)
  | CNe x y => CNe (untrunc a x) (untrunc a y)
  | CLt x y => CLt (untrunc a x) (untrunc a y)
  | CLe x y => CLe (untrunc a x) (untrunc a y)
  | CAnd l => CAnd (map (cuntrunc a) l)
  | COr l => COr (map (cuntrunc a) l)
  | CNot c => CNot (cuntrunc a c)
  end.
Definition untruncs (l : list expr) (e : expr) : expr := fold_left (fun e a => untrunc a e) l e.
Definition cuntruncs (l : list expr) (c : cond) : cond := fold_left (fun c a => cuntrunc a c) l c.

(** the memlets' subsets of a block, 51-52 *)
Definition operand_sub (o : operand) : list expr := match o with OConst _ => [] | ORead _ sub => sub end.
Definition op_subs (o : op) : list expr := concat (map operand_sub (o_ins o)) ++ o_sub o.
Definition block_subs (b : block) : list expr := concat (map op_subs b).
(** 79-89 *)
Definition map_operand (f : expr -> expr) (o : operand) : operand := match o with OConst z => OConst z | ORead y sub => ORead y (map f sub) end.
Definition map_op (f : expr -> expr) (o : op) : op := {| o_code := o_code o; o_ins := map (map_operand f) (o_ins o); o_out := o_out o; o_sub := map f (o_sub o) |}.
Definition safe_truncs (A : assumptions) (l : list expr) : list expr := filter (is_safe_trunc A) (concat (map truncs l)).
(** accept(Block), 45-93 *)
Definition minimize_block (A : assumptions) (b : block) : block := map (map_op (untruncs (safe_truncs A (block_subs b)))) b.
(** accept(For), 95-131, on the condition of a loop *)
Definition minimize_cond (A : assumptions) (c : cond) : cond := cuntruncs (filter (is_safe_trunc A) (ctruncs c)) c.

(** a block visitor that knows the loops around a block *)
Section Blocks.
  Variable f : list hdr -> block -> block.
  Fixpoint mapN (ctx : list hdr) (n : node) : node :=
    match n with
    | NBlock b => NBlock (f ctx b)
    | NSeq s => NSeq (mapS ctx s)
    | NIf b => NIf (mapB ctx b)
    | NWhile s => NWhile (mapS ctx s)
    | NLoop k i init c u s => NLoop k i init c u (mapS (ctx ++ [{| h_i := i; h_init := init; h_c := c; h_u := u; h_body := s |}]) s)
    | NBreak => NBreak | NContinue => NContinue | NReturn r => NReturn r
    end
  with mapS (ctx : list hdr) (s : seq) : seq := match s with SNil => SNil | SCons n a r => SCons (mapN ctx n) a (mapS ctx r) end
  with mapB (ctx : list hdr) (b : brs) : brs := match b with BNil => BNil | BCons c s r => BCons c (mapS ctx s) (mapB ctx r) end.

  Variable I : nat -> list Z -> option Z.
  Definition same_blocks (pre : list hdr) (R : list hdr -> node -> store -> Prop) : Prop :=
    forall ctx b s s', R ctx (NBlock b) s -> exec_block I s b = Some s' -> exec_block I s (f (pre ++ ctx) b) = Some s'.
  (** A change of the blocks that is invisible in the states in which they are reached is
      invisible in every execution. *)
  Lemma map_sim :
    (forall n a o a', run I n a o a' -> forall pre, same_blocks pre (reaches I n a) -> run I (mapN pre n) a o a') /\
    (forall s a o a', runs I s a o a' -> forall pre, same_blocks pre (reachesS I s a) -> runs I (mapS pre s) a o a') /\
    (forall s a o a', runb I s a o a' -> forall pre, same_blocks pre (reachesB I s a) -> runb I (mapB pre s) a o a') /\
    (forall s a o a', runw I s a o a' -> forall pre, same_blocks pre (reachesW I s a) -> runw I (mapS pre s) a o a') /\
    (forall i c u s a o a', runl I i c u s a o a' -> forall pre h, h_i h = i -> h_c h = c -> h_u h = u -> h_body h = s ->
      same_blocks pre (reachesL I h a) -> runl I i c u (mapS (pre ++ [h]) s) a o a').
  Proof.
    apply run_mind; cbn [mapN mapS mapB].
    - intros bl st st' R pre H. constructor. specialize (H [] bl st st' (V_here I _ _) R). rewrite app_nil_r in H. exact H.
    - intros s st o st' _ IH pre H. constructor. apply IH. intros ctx b s1 s2 R. apply H. constructor. exact R.
    - intros s st o st' _ IH pre H. constructor. apply IH. intros ctx b s1 s2 R. apply H. constructor. exact R.
    - intros s st o st' _ IH pre H. constructor. apply IH. intros ctx b s1 s2 R. apply H. constructor. exact R.
    - intros k i init c u s st v o st' E _ IH pre H. econstructor; [exact E|]. apply IH; auto. intros ctx b s1 s2 R. apply H. econstructor; [exact E|exact R].
    - constructor.
    - constructor.
    - constructor.
    - constructor.
    - intros n a r st s1 s2 o s3 R1 IH1 E R2 IH2 pre H. econstructor; [apply IH1|exact E|apply IH2].
      + intros ctx b t1 t2 R. apply H. constructor. exact R.
      + intros ctx b t1 t2 R. apply H. eapply V_tail; eassumption.
    - intros n a r st o s1 R IH N pre H. apply R_exit; [apply IH|exact N]. intros ctx b t1 t2 Q. apply H. constructor. exact Q.
    - constructor.
    - intros c s r st o s1 E R IH pre H. apply R_btrue; [exact E|]. apply IH. intros ctx b t1 t2 Q. apply H. constructor; assumption.
    - intros c s r st o s1 E R IH pre H. apply R_bfalse; [exact E|]. apply IH. intros ctx b t1 t2 Q. apply H. apply V_false; assumption.
    - intros s st o1 s1 o s2 R IH O W IHw pre H. econstructor; [apply IH|exact O|apply IHw].
      + intros ctx b t1 t2 Q. apply H. constructor. exact Q.
      + intros ctx b t1 t2 Q. apply H. eapply V_wnext; eassumption.
    - intros s st s1 R IH pre H. apply R_wbreak. apply IH. intros ctx b t1 t2 Q. apply H. constructor. exact Q.
    - intros s st r s1 R IH pre H. apply R_wret. apply IH. intros ctx b t1 t2 Q. apply H. constructor. exact Q.
    - intros i c u s st E pre h _ _ _ _ H. constructor. exact E.
    - intros i c u s st o1 s1 v o s2 E R IH O E2 W IHw pre h <- <- <- <- H. eapply R_lnext; [exact E|apply IH|exact O|exact E2|apply IHw; auto].
      + intros ctx b t1 t2 Q. rewrite <- app_assoc. cbn [app]. apply H. apply V_lnow; assumption.
      + intros ctx b t1 t2 Q. apply H. eapply V_lnext; eassumption.
    - intros i c u s st s1 E R IH pre h <- <- <- <- H. eapply R_lbreak; [exact E|apply IH].
      intros ctx b t1 t2 Q. rewrite <- app_assoc. cbn [app]. apply H. apply V_lnow; assumption.
    - intros i c u s st r s1 E R IH pre h <- <- <- <- H. eapply R_lret; [exact E|apply IH].
      intros ctx b t1 t2 Q. rewrite <- app_assoc. cbn [app]. apply H. apply V_lnow; assumption.
  Qed.
End Blocks.
(** the pass with the assumptions [As] of each loop nest, 41-42 *)
Definition minimize (As : list hdr -> assumptions) : node -> node := mapN (fun ctx => minimize_block (As ctx)) [].

(** ** Values *)
Lemma in_range_trunc s a z : ev s a = Fin z -> 0 <= z <= 2 ^ 31 - 1 -> ev s (ETrunc a) = Fin z.
Proof.
  intros E B. change (2 ^ 31 - 1) with 2147483647 in B. cbn [ev]. rewrite E. cbn [xlift1]. unfold ctrunc, in_int64.
  replace ((int64_min <=? z) && (z <=? int64_max)) with true by (symmetry; apply andb_true_iff; split; apply Z.leb_le; [change int64_min with (-9223372036854775808)|change int64_max with 9223372036854775807]; lia).
  f_equal. unfold swrap. change (2 ^ (32 - 1)) with 2147483648. change (2 ^ 32) with 4294967296. rewrite Z.mod_small; lia.
Qed.
Lemma ge_spec s e z : is_ge e z = true -> ev s e <> Bad /\ (forall v, xle (ev s e) v -> xle (Fin z) v).
Proof.
  destruct e; cbn; try discriminate.
  - intros H. apply Z.leb_le in H. split; [discriminate|]. intros v; destruct v; cbn; try tauto; lia.
  - intros _. split; [discriminate|]. intros v; destruct v; cbn; tauto.
Qed.
Lemma le_spec s e z : is_le e z = true -> ev s e <> Bad /\ (forall v, xle v (ev s e) -> xle v (Fin z)).
Proof.
  destruct e; cbn; try discriminate.
  - intros H. apply Z.leb_le in H. split; [discriminate|]. intros v; destruct v; cbn; try tauto; lia.
  - intros _. split; [discriminate|]. intros v; destruct v; cbn; tauto.
Qed.
Lemma holds_tight s A : holds s A -> sat_tight s A.
Proof.
  intros H y a Ha. destruct (H y a Ha) as [L U]. split; intros q Hq; [apply L; unfold lowers|apply U; unfold uppers]; rewrite Hq; right; apply in_or_app; right; left; reflexivity.
Qed.
Lemma holds_set s A : holds s A -> sat_set s A.
Proof. intros H y a Ha. destruct (H y a Ha) as [L U]. split; intros q Hq; [apply L|apply U]; right; apply in_or_app; left; exact Hq. Qed.
Lemma safe_range s A e : holds s A -> no_trunc_A A -> no_trunc e = true -> is_safe_trunc A e = true ->
  ev s e <> Bad -> exists z, ev s e = Fin z /\ 0 <= z <= 2 ^ 31 - 1.
Proof.
  intros HA NA NT S N. unfold is_safe_trunc in S. destruct (minimum_new [] A true e) as [m|] eqn:Em; [|discriminate].
  destruct (is_ge m 0) eqn:Eg; [|discriminate]. destruct (maximum_new [] A false e) as [M|] eqn:EM; [|discriminate].
  destruct (ge_spec s m 0 Eg) as [G1 G2]. destruct (le_spec s M _ S) as [L1 L2].
  pose proof (G2 _ (proj1 (minmax_new_sound s A [] true max_depth (holds_tight s A HA) NA e NT) m Em N G1)) as B1.
  pose proof (L2 _ (proj2 (minmax_new_sound s A [] false max_depth (holds_set s A HA) NA e NT) M EM N L1)) as B2.
  destruct (ev s e) as [z| | |]; cbn in B1, B2; try tauto. exists z. auto.
Qed.
Lemma safe_ev s A e : holds s A -> no_trunc_A A -> no_trunc e = true -> is_safe_trunc A e = true -> ev s (ETrunc e) = ev s e.
Proof.
  intros HA NA NT S. destruct (ev s e) as [z| | |] eqn:E.
  4: { cbn [ev]. rewrite E. reflexivity. }
  all: assert (N : ev s e <> Bad) by (rewrite E; discriminate).
  all: destruct (safe_range s A e HA NA NT S N) as (w & W & B); rewrite E in W; try discriminate.
  injection W as <-. apply in_range_trunc; assumption.
Qed.
Lemma untrunc_ev s a : ev s (ETrunc a) = ev s a -> forall e, ev s (untrunc a e) = ev s e.
Proof.
  intros H e. induction e using expr_ind'.
  all: match goal with |- ev _ (untrunc ?a ?x) = _ => unfold untrunc; fold untrunc; destruct (expr_eqb x (ETrunc a)) eqn:EQ; [apply expr_eqb_eq in EQ; rewrite EQ; symmetry; assumption|] end.
  all: cbn [ev]; try reflexivity; try congruence.
  all: rewrite map_map; f_equal; apply map_ext_Forall; assumption.
Qed.
Lemma cuntrunc_ev s a : ev s (ETrunc a) = ev s a -> forall c, cev s (cuntrunc a c) = cev s c.
Proof.
  intros H c. induction c as [b|x y|x y|x y|x y|l IH|l IH|c IH] using cond_ind'; cbn [cuntrunc cev]; rewrite ?(untrunc_ev s a H); try reflexivity.
  - rewrite map_map. f_equal. apply map_ext_Forall. exact IH.
  - rewrite map_map. f_equal. apply map_ext_Forall. exact IH.
  - rewrite IH. reflexivity.
Qed.
