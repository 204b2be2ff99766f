(** * MapFusion (transformations/map_fusion.cpp) *)
From Verif Require Import Sym SymFacts SymFuns SymProofs1 SymProofs4 IR IRFacts IRRefine LoopTile LoopIter Interchange TypesProofs Skew While2For While2ForProofs.
From Verif Require Delin.
From Coq Require Import Permutation.

(** map_fusion.h: FusionCandidate, with the temporary of lines 264-271 *)
Record candidate := Cand { k_cont : string; k_sub : expr; k_map : expr; k_tmp : string }.

(** ** apply, lines 246-385 *)
Definition subs_in (i : string) (m : expr) (o : operand) : operand :=
  match o with OConst z => OConst z | ORead x l => ORead x (map (fun e => subs e i m) l) end.
(** lines 278-322: the copy of the producer; expand is left out (it keeps values) *)
Definition copy_op (i : string) (k : candidate) (o : op) : op :=
  {| o_code := o_code o; o_ins := map (subs_in i (k_map k)) (o_ins o);
     o_out := if String.eqb (o_out o) (k_cont k) then k_tmp k else o_out o;
     o_sub := if String.eqb (o_out o) (k_cont k) then [] else map (fun e => subs e i (k_map k)) (o_sub o) |}.
Definition copy_block (i : string) (pb : block) (k : candidate) : block := map (copy_op i k) pb.
(** lines 352-380: the candidate of a container and a subset *)
Definition hit (ks : list candidate) (x : string) (l : list expr) : option candidate :=
  find (fun k => String.eqb (k_cont k) x && match l with [e] => expr_eqb e (k_sub k) | _ => false end) ks.
(** lines 326-385: [via] is the subset of the last memlet of the access node a tasklet
    reads through: the access node is renamed once for each of its memlets. Operands are
    addressed by their block, tasklet and input numbers. *)
Definition rw_in (ks : list candidate) (via : list expr) (o : operand) : operand :=
  match o with
  | ORead x l => match hit ks x via with Some k => ORead (k_tmp k) [] | None => o end
  | _ => o
  end.
Fixpoint rw_ins (ks : list candidate) (via : nat -> list expr) (p : nat) (l : list operand) : list operand :=
  match l with [] => [] | o :: r => rw_in ks (via p) o :: rw_ins ks via (S p) r end.
Definition rw_op (ks : list candidate) (via : nat -> list expr) (o : op) : op :=
  {| o_code := o_code o; o_ins := rw_ins ks via 0 (o_ins o); o_out := o_out o; o_sub := o_sub o |}.
Fixpoint rw_block (ks : list candidate) (via : nat -> nat -> list expr) (q : nat) (b : block) : block :=
  match b with [] => [] | o :: r => rw_op ks (via q) o :: rw_block ks via (S q) r end.
Fixpoint rw_seq (ks : list candidate) (via : nat -> nat -> nat -> list expr) (n : nat) (s : seq) : seq :=
  match s with
  | SCons (NBlock b) a r => SCons (NBlock (rw_block ks (via n) 0 b)) a (rw_seq ks via (S n) r)
  | SCons m a r => SCons m a (rw_seq ks via (S n) r)
  | SNil => SNil
  end.
(** lines 273-276: each copy is inserted in front of the body *)
Definition fused_body (i : string) (pb : block) (ks : list candidate) (via : nat -> nat -> nat -> list expr) (body : seq) : seq :=
  fold_left (fun s k => SCons (NBlock (copy_block i pb k)) [] s) ks (rw_seq ks via 0 body).

(** ** can_be_applied, lines 21-244 *)
Definition memS (x : string) (l : list string) : bool := existsb (String.eqb x) l.
Definition reads_cont (A : string) (o : operand) : bool := match o with ORead x _ => String.eqb x A | _ => false end.
(** lines 112-143: one tasklet writes the container, none reads it *)
Definition producer (A : string) (pb : block) : option expr :=
  if existsb (fun o => existsb (reads_cont A) (o_ins o)) pb then None
  else match filter (fun o => String.eqb (o_out o) A) pb with
       | [o] => match o_sub o with [e] => Some e | _ => None end
       | _ => None
       end.
(** lines 161-195: the subsets with which the blocks of the second loop read it *)
Fixpoint in_subs (A : string) (l : list operand) : option (list expr) :=
  match l with
  | [] => Some []
  | ORead x s :: r => if String.eqb x A then match s, in_subs A r with [e], Some es => Some (e :: es) | _, _ => None end else in_subs A r
  | _ :: r => in_subs A r
  end.
Fixpoint block_subs (A : string) (b : block) : option (list expr) :=
  match b with
  | [] => Some []
  | o :: r => if String.eqb (o_out o) A then None else match in_subs A (o_ins o), block_subs A r with Some es, Some fs => Some (es ++ fs) | _, _ => None end
  end.
Fixpoint seq_subs (A : string) (s : seq) : option (list expr) :=
  match s with
  | SNil => Some []
  | SCons (NBlock b) _ r => match block_subs A b, seq_subs A r with Some es, Some fs => Some (es ++ fs) | _, _ => None end
  | SCons _ _ _ => None
  end.
Fixpoint all_some {X} (l : list (option X)) : option (list X) :=
  match l with [] => Some [] | Some x :: r => option_map (cons x) (all_some r) | None :: _ => None end.
Fixpoint in_body (s : seq) : list string :=
  match s with SCons (NBlock b) _ r => concat (map (fun o => concat (map (fun p => match p with ORead x _ => [x] | _ => [] end) (o_ins o))) b) ++ in_body r | SCons _ _ r => in_body r | SNil => [] end.
Section ACCEPT.
  Variable sc : string -> bool.              (* scalar containers *)
  Variable tmp : nat -> string.              (* find_new_name("_fused_tmp") *)
  Variable order : list expr -> list expr.   (* iteration order of an ExpressionSet *)
  Variable orderS : list string -> list string.
  Variable via : nat -> nat -> nat -> list expr.
  (** lines 204-226 *)
  Definition is_param (n : node) (y : string) : bool := sc y && memS y (nnames n) && negb (memS y (nwrites n)).
  (** lines 197-238 *)
  Definition candidates_of (i j : string) (n1 n2 : node) (pb : block) (body : seq) (A : string) : option (list (expr * expr)) :=
    match producer A pb, seq_subs A body with
    | Some pe, Some es =>
        match affine i pe with
        | Some (a, b) =>
            if expr_eqb a (EInt 0) then None
            else all_some (map (fun e => match sym_div (ssub e b) a with
                   | Some m => if forallb (fun y => String.eqb y j || is_param n2 y || is_param n1 y) (atoms m) then Some (e, m) else None
                   | None => None end) (order es))
        | None => None
        end
    | _, _ => None
    end.
  Fixpoint number (n : nat) (l : list (string * (expr * expr))) : list candidate :=
    match l with [] => [] | (A, (e, m)) :: r => Cand A e m (tmp n) :: number (S n) r end.
  Definition candidates (i j : string) (n1 n2 : node) (pb : block) (body : seq) : option (list candidate) :=
    let conts := orderS (filter (fun x => negb (sc x) && memS x (in_body body)) (map o_out pb)) in
    match all_some (map (fun A => option_map (map (pair A)) (candidates_of i j n1 n2 pb body A)) conts) with
    | Some l => match number 0 (concat l) with [] => None | ks => Some ks end
    | None => None
    end.
  (** the second loop after fusion; the first one stays *)
  Definition map_fusion (n1 n2 : node) : option node :=
    match n1, n2 with
    | NLoop KMap i _ _ _ (SCons (NBlock pb) [] SNil), NLoop k j init c u body =>
        match candidates i j n1 n2 pb body with
        | Some ks => Some (NLoop k j init c u (fused_body i pb ks via body))
        | None => None
        end
    | _, _ => None
    end.
End ACCEPT.

(* ---------------------------------------------------------------- *)
(** ** Executing a copy of the producer *)
Lemma wr_name st x i v y j : x <> y -> wr st x i v y j = st y j.
Proof. intros N. apply IRFacts.wr_other. left. exact N. Qed.
Definition op_reads (o : op) : list string := concat (map opnames (o_ins o)) ++ concat (map atoms (o_sub o)).
Section COPY.
  Variable I : nat -> list Z -> option Z.
  Variable i : string.
  Variable W : list string.        (* private scalars of the producer *)
  Variable St : string -> Prop.    (* what the producer reads from outside *)
  Hypothesis St_i : ~ St i.
  Hypothesis W_i : ~ In i W.
  Hypothesis W_St : forall x, In x W -> ~ St x.
  (** Every read is of the index, of an outside container or of a private scalar that
      has been written before; private scalars are written as scalars. *)
  Definition known (Def : list string) (x : string) : Prop := x = i \/ St x \/ In x Def.
  Definition ok_in (Def : list string) (o : operand) : Prop :=
    match o with OConst _ => True | ORead x l => (St x \/ (x = i \/ In x Def) /\ l = []) /\ forall y, In y (concat (map atoms l)) -> known Def y end.
  Fixpoint ok_block (Def : list string) (b : block) : Prop :=
    match b with
    | [] => True
    | o :: r => (forall p, In p (o_ins o) -> ok_in Def p) /\ (forall y, In y (concat (map atoms (o_sub o))) -> known Def y) /\
        (if in_dec string_dec (o_out o) W then o_sub o = [] else forall y, In y (concat (map atoms (o_sub o))) -> y = i \/ St y) /\
        o_out o <> i /\ ~ St (o_out o) /\ (In (o_out o) W \/ ~ In (o_out o) (map o_out r)) /\
        ok_block (if in_dec string_dec (o_out o) W then o_out o :: Def else Def) r
    end.
  Section ONE.
    Variable k : candidate.
    Variable v : Z.
    Hypothesis T_new : ~ In (k_tmp k) W /\ ~ St (k_tmp k) /\ k_tmp k <> i.
    Hypothesis A_new : ~ In (k_cont k) W.
    Notation m := (k_map k).
    Definition cagree (Def : list string) (a b : store) : Prop :=
      (forall x, St x -> forall idx, a x idx = b x idx) /\ (forall x, In x Def -> a x [] = b x []) /\ a i [] = v /\ eval (env_of b) m = Some v.
    Lemma eval_copy Def a b e : cagree Def a b -> (forall y, In y (atoms e) -> known Def y) -> eval (env_of b) (subs e i m) = eval (env_of a) e.
    Proof.
      intros (S1 & S2 & S3 & S4) H. unfold eval in *. destruct (ev (env_of b) m) as [z| | |] eqn:E; try discriminate. injection S4 as ->.
      rewrite (ev_subs _ e i m v E). rewrite (ev_agree (upd (env_of b) i v) (env_of a)); [reflexivity|].
      intros y Hy. unfold upd. destruct (String.eqb_spec i y) as [<-|N]; [symmetry; exact S3|]. destruct (H y Hy) as [->|[Hs|Hd]]; [congruence| |].
      - symmetry. apply S1. exact Hs.
      - symmetry. apply S2. exact Hd.
    Qed.
    Lemma evals_copy Def a b l : cagree Def a b -> (forall y, In y (concat (map atoms l)) -> known Def y) -> evals (env_of b) (map (fun e => subs e i m) l) = evals (env_of a) l.
    Proof.
      intros C. induction l as [|e l IH]; [reflexivity|]. intros H. simpl. simpl in H. rewrite (eval_copy Def a b e C), IH; [reflexivity| |]; intros y Hy; apply H, in_or_app; auto.
    Qed.
    (** no private name, and [i] is read as a symbol: the copy does not read it as a container *)
    Lemma reads_copy Def a b l : cagree Def a b -> ~ In i Def -> (forall p, In p l -> ok_in Def p) -> (forall p, In p l -> forall s, p <> ORead i s) ->
      reads_in b (map (subs_in i m) l) = reads_in a l.
    Proof.
      intros C ND. induction l as [|p l IH]; [reflexivity|]. intros H NI. cbn [map reads_in]. rewrite IH; [|intros q Hq; apply H; right; exact Hq|intros q Hq; apply NI; right; exact Hq].
      assert (R: read_in b (subs_in i m p) = read_in a p); [|rewrite R; reflexivity].
      specialize (H p (or_introl eq_refl)). destruct p as [z|x s]; [reflexivity|]. cbn [subs_in read_in]. destruct H as [H1 H2]. rewrite (evals_copy Def a b s C H2).
      destruct (evals (env_of a) s) as [idx|] eqn:E; [|reflexivity]. f_equal. destruct C as (S1 & S2 & S3 & S4). destruct H1 as [H1|[[->|H1] ->]].
      - symmetry. apply S1. exact H1.
      - exfalso. eapply NI; [left; reflexivity|reflexivity].
      - simpl in E. injection E as <-. symmetry. apply S2. exact H1.
    Qed.
    (** the store [b0] already holds what the producer would write into shared containers *)
    Lemma copy_run b0 pb : forall Def a b a', ok_block Def pb -> incl Def W -> cagree Def a b -> (forall o, In o pb -> forall p, In p (o_ins o) -> forall s, p <> ORead i s) ->
      (forall y, In y (atoms m) -> ~ In y W /\ y <> k_tmp k /\ ~ In y (map o_out pb)) -> ~ In (k_tmp k) (map o_out pb) ->
      (forall x, ~ In x W -> x <> k_tmp k -> forall idx, b x idx = b0 x idx) ->
      exec_block I a pb = Some a' ->
      (forall o, In o pb -> ~ In (o_out o) W -> forall idx, evals (env_of a) (o_sub o) = Some idx -> b0 (o_out o) idx = a' (o_out o) idx) ->
      exists b', exec_block I b (copy_block i pb k) = Some b' /\ (forall x, ~ In x W -> x <> k_tmp k -> forall idx, b' x idx = b0 x idx) /\
        (~ In (k_cont k) (map o_out pb) -> b' (k_tmp k) [] = b (k_tmp k) []) /\
        (forall o, In o pb -> o_out o = k_cont k -> forall idx, evals (env_of a) (o_sub o) = Some idx -> b' (k_tmp k) [] = a' (k_cont k) idx).
    Proof.
      induction pb as [|o pb IH]; intros Def a b a' OK DW C NI MA TO B0 EX HOLD.
      - simpl in EX. injection EX as <-. exists b. repeat split; auto. intros o [].
      - simpl in EX. destruct (exec_op I a o) as [a1|] eqn:EO; [|discriminate]. cbn [ok_block] in OK. destruct OK as (OI & OS & OW & Oi & OSt & OU & OK).
        assert (NDi: ~ In i Def) by (intros J; apply W_i, DW, J).
        assert (EOP: exists vs idx val, reads_in a (o_ins o) = Some vs /\ evals (env_of a) (o_sub o) = Some idx /\ I (o_code o) vs = Some val /\ a1 = wr a (o_out o) idx val).
        { unfold exec_op in EO. destruct (reads_in a (o_ins o)) as [vs|]; [|discriminate]. destruct (evals (env_of a) (o_sub o)) as [idx|]; [|discriminate].
          destruct (I (o_code o) vs) as [val|] eqn:EI; [|discriminate]. injection EO as <-. eauto 8. }
        destruct EOP as (vs & idx & val & R1 & R2 & R3 & ->).
        assert (RC: reads_in b (map (subs_in i m) (o_ins o)) = Some vs) by (rewrite (reads_copy Def a b _ C NDi OI); [exact R1|intros p Hp; apply (NI o); [left; reflexivity|exact Hp]]).
        assert (SC: evals (env_of b) (map (fun e => subs e i m) (o_sub o)) = Some idx) by (rewrite (evals_copy Def a b _ C OS); exact R2).
        destruct C as (S1 & S2 & S3 & S4).
        (* later operations do not see this write in their subsets *)
        assert (SUB: forall o', In o' pb -> ~ In (o_out o') W -> evals (env_of (wr a (o_out o) idx val)) (o_sub o') = evals (env_of a) (o_sub o')).
        { intros o' Ho' NW. assert (G: forall y, In y (concat (map atoms (o_sub o'))) -> y = i \/ St y).
          { clear - OK Ho' NW. revert OK. generalize (if in_dec string_dec (o_out o) W then o_out o :: Def else Def) as Df. induction pb as [|q pb IHp]; intros Df OK; [destruct Ho'|].
            cbn [ok_block] in OK. destruct OK as (_ & _ & OW & _ & _ & _ & OK). destruct Ho' as [->|Ho']; [|eapply IHp; eauto].
            destruct (in_dec string_dec (o_out o') W); [contradiction|exact OW]. }
          apply (evals_eqx (fun x => x = o_out o)); [intros x N j; apply wr_name; congruence|]. intros y Hy ->. destruct (G _ Hy); [apply Oi; assumption|apply OSt; assumption]. }
        (* the write in the copy *)
        set (b1 := wr b (o_out (copy_op i k o)) (if String.eqb (o_out o) (k_cont k) then [] else idx) val).
        assert (EB: exec_op I b (copy_op i k o) = Some b1).
        { unfold exec_op, copy_op. cbn [o_ins o_sub o_code o_out]. rewrite RC. unfold b1, copy_op. cbn [o_out]. destruct (String.eqb (o_out o) (k_cont k)); [cbn [evals]; rewrite R3; reflexivity|].
          rewrite SC, R3. reflexivity. }
        assert (FIN: In (o_out o) W \/ a' (o_out o) idx = val).
        { destruct OU as [OU|OU]; [auto|right]. rewrite (exec_block_writes I pb _ _ EX _ OU). apply Trace.wr_same. }
        assert (T1: ~ In (k_tmp k) (o_out o :: map o_out pb)) by exact TO.
        assert (C1: cagree (if in_dec string_dec (o_out o) W then o_out o :: Def else Def) (wr a (o_out o) idx val) b1).
        { assert (OB: o_out (copy_op i k o) = k_tmp k \/ o_out (copy_op i k o) = o_out o) by (unfold copy_op; cbn; destruct (String.eqb (o_out o) (k_cont k)); auto).
          split; [|split; [|split]].
          - intros x Hx j. assert (N1: o_out o <> x) by (intros Q; apply OSt; rewrite Q; exact Hx).
            assert (N2: o_out (copy_op i k o) <> x) by (intros Q; destruct OB as [OB|OB]; rewrite OB in Q; [apply (proj1 (proj2 T_new)); rewrite Q; exact Hx|contradiction]).
            unfold b1. rewrite (wr_name a _ _ _ _ _ N1), (wr_name b _ _ _ _ _ N2). apply S1. exact Hx.
          - intros x Hx. destruct (in_dec string_dec (o_out o) W) as [J|J].
            + rewrite OW in R2. simpl in R2. injection R2 as <-.
              assert (NA: String.eqb (o_out o) (k_cont k) = false) by (apply String.eqb_neq; intros Q; apply A_new; rewrite <- Q; exact J).
              assert (OE: o_out (copy_op i k o) = o_out o) by (unfold copy_op; cbn; rewrite NA; reflexivity). unfold b1. rewrite OE, NA. unfold wr.
              destruct (String.eqb (o_out o) x) eqn:EX1; [reflexivity|]. cbn [andb]. apply String.eqb_neq in EX1. destruct Hx as [Hx|Hx]; [contradiction|]. apply S2. exact Hx.
            + unfold b1. assert (XW: In x W) by (apply DW; exact Hx). assert (N1: o_out o <> x) by (intros Q; apply J; rewrite Q; exact XW).
              assert (N2: o_out (copy_op i k o) <> x) by (intros Q; destruct OB as [OB|OB]; rewrite OB in Q; [apply (proj1 T_new); rewrite Q; exact XW|contradiction]).
              rewrite (wr_name a _ _ _ _ _ N1), (wr_name b _ _ _ _ _ N2). apply S2. exact Hx.
          - rewrite wr_name; [exact S3|]. congruence.
          - rewrite <- S4. apply eval_eqx with (D := fun x => x = o_out (copy_op i k o)); [intros x N j; unfold b1; apply wr_name; congruence|].
            intros y Hy Q. destruct (MA y Hy) as (M1 & M2 & M3). destruct OB as [OB|OB]; rewrite OB in Q; subst y; [congruence|]. apply M3. left. reflexivity. }
        assert (B1: forall x, ~ In x W -> x <> k_tmp k -> forall j, b1 x j = b0 x j).
        { intros x NW NT j. unfold b1, copy_op. cbn [o_out]. destruct (String.eqb_spec (o_out o) (k_cont k)) as [QA|NA].
          - rewrite wr_name by (clear - NT; congruence). apply B0; assumption.
          - destruct (String.eqb_spec (o_out o) x) as [<-|N]; [|rewrite wr_name by (clear - N; congruence); apply B0; assumption].
            destruct (idx_eqb idx j) eqn:EJ.
            + apply Trace.idx_eqb_eq in EJ. subst j. rewrite Trace.wr_same. destruct FIN as [FIN|FIN]; [contradiction|]. rewrite <- FIN. symmetry. apply (HOLD o); [left; reflexivity|exact NW|exact R2].
            + rewrite Trace.wr_other; [apply B0; assumption|]. intros [_ Q]. subst j. assert (idx_eqb idx idx = true) by (apply Trace.idx_eqb_eq; reflexivity). congruence. }
        destruct (IH (if in_dec string_dec (o_out o) W then o_out o :: Def else Def) (wr a (o_out o) idx val) b1 a') as (b' & E' & F' & K' & T'); auto.
        + destruct (in_dec string_dec (o_out o) W); [|exact DW]. intros x [<-|Hx]; auto.
        + intros q Hq. apply NI. right. exact Hq.
        + intros y Hy. destruct (MA y Hy) as (M1 & M2 & M3). repeat split; auto. intros J. apply M3. right. exact J.
        + intros J. apply TO. right. exact J.
        + intros o' Ho' NW idx' E'. rewrite SUB in E' by assumption. apply (HOLD o'); [right; exact Ho'|exact NW|exact E'].
        + exists b'. split; [cbn [copy_block map exec_block]; rewrite EB; exact E'|]. split; [exact F'|]. split.
          * intros NO. rewrite K'; [|intros J; apply NO; right; exact J]. unfold b1, copy_op. cbn [o_out]. destruct (String.eqb_spec (o_out o) (k_cont k)) as [Q|N]; [exfalso; apply NO; left; exact Q|].
            apply wr_name. intros Q. apply TO. left. exact Q.
          * intros o' [<-|Ho'] QA idx' E1.
            -- assert (idx' = idx) by congruence. subst idx'. destruct OU as [OU|OU]; [exfalso; apply A_new; rewrite <- QA; exact OU|]. destruct FIN as [FIN|FIN]; [exfalso; apply A_new; rewrite <- QA; exact FIN|].
               rewrite K' by (rewrite <- QA; exact OU). rewrite <- QA at 1. rewrite FIN. unfold b1, copy_op. cbn [o_out]. apply String.eqb_eq in QA as QB. rewrite QB. apply Trace.wr_same.
            -- apply (T' o' Ho' QA). rewrite SUB; [exact E1|exact Ho'|rewrite QA; exact A_new].
    Qed.
  End ONE.
  (** ** The first loop *)
  Lemma array_subs pb : forall Def o, ok_block Def pb -> In o pb -> ~ In (o_out o) W -> forall y, In y (concat (map atoms (o_sub o))) -> y = i \/ St y.
  Proof.
    induction pb as [|q pb IH]; intros Def o OK Ho NW; [destruct Ho|]. cbn [ok_block] in OK. destruct OK as (_ & _ & OW & _ & _ & _ & OK).
    destruct Ho as [->|Ho]; [|eapply IH; eauto]. destruct (in_dec string_dec (o_out o) W); [contradiction|exact OW].
  Qed.
  Lemma outs_ok pb : forall Def o, ok_block Def pb -> In o pb -> o_out o <> i /\ ~ St (o_out o).
  Proof.
    induction pb as [|q pb IH]; intros Def o OK Ho; [destruct Ho|]. cbn [ok_block] in OK. destruct OK as (_ & _ & _ & Oi & OS & _ & OK).
    destruct Ho as [->|Ho]; [auto|eapply IH; eauto].
  Qed.
  Lemma once pb : forall Def o o', ok_block Def pb -> In o pb -> In o' pb -> ~ In (o_out o) W -> o_out o = o_out o' -> o = o'.
  Proof.
    induction pb as [|q pb IH]; intros Def o o' OK Ho Ho' NW Q; [destruct Ho|]. cbn [ok_block] in OK. destruct OK as (_ & _ & _ & _ & _ & OU & OK).
    destruct Ho as [->|Ho], Ho' as [->|Ho']; [reflexivity| | |eapply IH; eauto].
    - destruct OU as [OU|OU]; [contradiction|]. exfalso. apply OU. rewrite Q. apply in_map. exact Ho'.
    - rewrite Q in NW. destruct OU as [OU|OU]; [contradiction|]. exfalso. apply OU. rewrite <- Q. apply in_map. exact Ho.
  Qed.
  Lemma array_evals pb Def o s t : ok_block Def pb -> In o pb -> ~ In (o_out o) W -> (forall y, y = i \/ St y -> s y = t y) ->
    evals s (o_sub o) = evals t (o_sub o).
  Proof.
    intros OK Ho NW H. pose proof (array_subs pb Def o OK Ho NW) as G. induction (o_sub o) as [|e l IH]; [reflexivity|]. cbn [evals]. simpl in G.
    unfold eval at 1 2. rewrite (ev_agree s t e) by (intros y Hy; apply H, G, in_or_app; left; exact Hy).
    rewrite IH by (intros y Hy; apply G, in_or_app; right; exact Hy). reflexivity.
  Qed.
  Lemma block_cells pb : forall Def p q, ok_block Def pb -> exec_block I p pb = Some q -> forall x idx, ~ In x W ->
    (forall o, In o pb -> o_out o = x -> evals (env_of p) (o_sub o) <> Some idx) -> q x idx = p x idx.
  Proof.
    induction pb as [|o pb IH]; intros Def p q OK EX x idx NW H; [injection EX as <-; reflexivity|].
    pose proof OK as OK0. cbn [ok_block] in OK. destruct OK as (_ & _ & _ & Oi & OS & _ & OK). cbn [exec_block] in EX. destruct (exec_op I p o) as [p1|] eqn:EO; [|discriminate].
    unfold exec_op in EO. destruct (reads_in p (o_ins o)) as [vs|]; [|discriminate]. destruct (evals (env_of p) (o_sub o)) as [k|] eqn:EK; [|discriminate].
    destruct (I (o_code o) vs) as [val|]; [|discriminate]. injection EO as <-.
    rewrite (IH _ _ _ OK EX x idx NW).
    - apply Trace.wr_other. intros [Q1 Q2]. subst k. apply (H o (or_introl eq_refl) Q1). exact EK.
    - intros o' Ho' Q. rewrite (array_evals (o :: pb) Def o' _ (env_of p) OK0); [apply H; [right; exact Ho'|exact Q]|right; exact Ho'|rewrite Q; exact NW|].
      intros y Hy. apply wr_name. intros Q'. subst y. destruct Hy as [Hy|Hy]; contradiction.
  Qed.

  Section FIRST.
    Variable pb : block.
    Variable E0 : env.
    Hypothesis OK : ok_block [] pb.
    (** distinct index values write distinct elements *)
    Hypothesis INJ : forall o v w idx, In o pb -> ~ In (o_out o) W -> v <> w -> evals (upd E0 i v) (o_sub o) = Some idx -> evals (upd E0 i w) (o_sub o) <> Some idx.
    Notation one := (SCons (NBlock pb) [] SNil).
    Lemma raw_block v a b : raw I i one v a b -> exec_block I (wr a i [] v) pb = Some b.
    Proof.
      intros (o & _ & R). inversion R; subst.
      - match goal with K : run _ (NBlock pb) _ _ _ |- _ => inversion K; subst end. match goal with K : exec_assigns _ [] = _ |- _ => simpl in K; injection K as <- end.
        match goal with K : runs _ SNil _ _ _ |- _ => inversion K; subst end. assumption.
      - match goal with K : run _ (NBlock pb) _ _ _ |- _ => inversion K; subst end. congruence.
    Qed.
    Lemma St_kept a b : exec_block I a pb = Some b -> forall x, St x \/ x = i -> forall k, b x k = a x k.
    Proof.
      intros EX x Hx k. apply (exec_block_writes I pb a b EX). intros J. apply in_map_iff in J as (o & Q & Ho). destruct (outs_ok pb [] o OK Ho) as [N1 N2].
      rewrite Q in N1, N2. destruct Hx; contradiction.
    Qed.
    Lemma evals_at o a v : In o pb -> ~ In (o_out o) W -> (forall x, St x -> a x [] = E0 x) -> a i [] = v -> evals (env_of a) (o_sub o) = evals (upd E0 i v) (o_sub o).
    Proof.
      intros Ho NW HS Hi. apply (array_evals pb [] o); auto. intros y Hy. unfold upd. destruct (String.eqb_spec i y) as [<-|N]; [exact Hi|].
      destruct Hy as [->|Hy]; [congruence|]. apply HS. exact Hy.
    Qed.
    (** what later index values write is elsewhere *)
    Lemma untouched o idx ws : In o pb -> ~ In (o_out o) W -> forall a b, (forall x, St x -> a x [] = E0 x) -> iterL (raw I i one) ws a b ->
      (forall w, In w ws -> evals (upd E0 i w) (o_sub o) <> Some idx) -> b (o_out o) idx = a (o_out o) idx.
    Proof.
      intros Ho NW. induction ws as [|w ws IH]; intros a b HS L H; cbn [iterL] in L; [symmetry; apply steq_at; exact L|].
      destruct L as (m & R & L). apply raw_block in R. rewrite (IH m b); auto.
      - rewrite (block_cells pb [] _ _ OK R _ idx NW).
        + apply wr_name. intros Q. apply (proj1 (outs_ok pb [] o OK Ho)). symmetry. exact Q.
        + intros o' Ho' Q. assert (o = o') by (eapply once; eauto). subst o'. rewrite (evals_at o _ w Ho NW); [apply H; left; reflexivity| |apply Trace.wr_same].
          intros x Hx. rewrite wr_name; [apply HS; exact Hx|]. intros Q'. subst x. contradiction.
      - intros x Hx. rewrite (St_kept _ _ R) by auto. rewrite wr_name; [apply HS; exact Hx|]. intros Q'. subst x. contradiction.
      - intros w' Hw'. apply H. right. exact Hw'.
    Qed.
    (** every index value: the instance that ran for it, and its results still in place *)
    Lemma instances vs : NoDup vs -> forall a b, (forall x, St x -> a x [] = E0 x) -> iterL (raw I i one) vs a b ->
      (forall x, St x -> forall k, b x k = a x k) /\
      (forall v, In v vs -> exists p q, (forall x, St x -> forall k, p x k = a x k) /\ p i [] = v /\ exec_block I p pb = Some q /\
        forall o, In o pb -> ~ In (o_out o) W -> forall idx, evals (env_of p) (o_sub o) = Some idx -> b (o_out o) idx = q (o_out o) idx).
    Proof.
      induction vs as [|v vs IH]; intros ND a b HS L; cbn [iterL] in L; [split; [intros x _ k; symmetry; apply steq_at; exact L|intros v []]|].
      apply NoDup_cons_iff in ND as [NI ND]. destruct L as (m & R & L). apply raw_block in R.
      assert (NE: forall x, St x -> i <> x) by (intros x Hx Q; subst x; contradiction).
      assert (Hm: forall x, St x -> forall k, m x k = a x k) by (intros x Hx k; rewrite (St_kept _ _ R) by auto; apply wr_name; auto).
      assert (HSm: forall x, St x -> m x [] = E0 x) by (intros x Hx; rewrite Hm by exact Hx; apply HS; exact Hx).
      destruct (IH ND m b HSm L) as [B1 B2]. split; [intros x Hx k; rewrite B1, Hm by exact Hx; reflexivity|].
      intros w [<-|Hw].
      - exists (wr a i [] v), m. split; [intros x Hx k; apply wr_name; auto|]. split; [apply Trace.wr_same|]. split; [exact R|].
        intros o Ho NW idx E1. apply (untouched o idx vs Ho NW m b HSm L). intros w Hw. apply (INJ o v w idx Ho NW); [intros Q; subst w; contradiction|].
        rewrite <- (evals_at o (wr a i [] v) v Ho NW); [exact E1| |apply Trace.wr_same]. intros x Hx. rewrite wr_name by auto. apply HS. exact Hx.
      - destruct (B2 w Hw) as (p & q & P1 & P2 & P3 & P4). exists p, q. split; [intros x Hx k; rewrite P1, Hm by exact Hx; reflexivity|]. auto.
    Qed.
  End FIRST.

  (** ** One iteration of the second loop *)
  Section SECOND.
    Variable pb : block.
    Variable ks : list candidate.
    Variable d : store.                 (* the store of the original program *)
    Hypothesis OK : ok_block [] pb.
    Hypothesis NI : forall o, In o pb -> forall p, In p (o_ins o) -> forall s, p <> ORead i s.
    Definition Dx (x : string) : Prop := In x W \/ In x (map k_tmp ks).
    Hypothesis Wout : incl W (map o_out pb).
    Hypothesis T_new : forall k, In k ks -> ~ St (k_tmp k) /\ k_tmp k <> i /\ ~ In (k_tmp k) (map o_out pb).
    Hypothesis A_new : forall k, In k ks -> ~ In (k_cont k) W.
    Hypothesis M_ok : forall k, In k ks -> forall y, In y (atoms (k_map k)) -> ~ In y (map k_tmp ks) /\ ~ In y (map o_out pb).
    (** what the copy for [k] needs: an instance of the producer whose results are in place *)
    Definition served (k : candidate) : Prop := exists v p q z,
      eval (env_of d) (k_map k) = Some v /\ eval (env_of d) (k_sub k) = Some z /\
      (forall x, St x -> forall idx, p x idx = d x idx) /\ p i [] = v /\ exec_block I p pb = Some q /\
      (forall o, In o pb -> ~ In (o_out o) W -> forall idx, evals (env_of p) (o_sub o) = Some idx -> d (o_out o) idx = q (o_out o) idx) /\
      (exists o, In o pb /\ o_out o = k_cont k /\ evals (env_of p) (o_sub o) = Some [z]).
    Lemma St_D x : St x -> ~ Dx x.
    Proof. intros Hx [J|J]; [exact (W_St x J Hx)|]. apply in_map_iff in J as (k & <- & Hk). apply (proj1 (T_new k Hk)). exact Hx. Qed.
    Lemma out_D o : In o pb -> ~ In (o_out o) W -> ~ Dx (o_out o).
    Proof. intros Ho NW [J|J]; [contradiction|]. apply in_map_iff in J as (k & Q & Hk). apply (proj2 (proj2 (T_new k Hk))). rewrite Q. apply in_map. exact Ho. Qed.
    Lemma map_D k : In k ks -> avoids Dx (atoms (k_map k)).
    Proof. intros Hk y Hy [J|J]; [|exact (proj1 (M_ok k Hk y Hy) J)]. apply (proj2 (M_ok k Hk y Hy)). apply Wout. exact J. Qed.
    Lemma one_copy k c : In k ks -> served k -> eqx Dx d c ->
      exists c', exec_block I c (copy_block i pb k) = Some c' /\ eqx Dx d c' /\ (exists z, eval (env_of d) (k_sub k) = Some z /\ c' (k_tmp k) [] = d (k_cont k) [z]) /\
        (forall x, ~ In x W -> x <> k_tmp k -> forall idx, c' x idx = c x idx).
    Proof.
      intros Hk (v & p & q & z & E1 & E2 & P1 & P2 & P3 & P4 & (o & Ho & Qo & Eo)) DC. destruct (T_new k Hk) as (T1 & T2 & T3).
      assert (TW: ~ In (k_tmp k) W) by (intros J; apply T3, Wout, J).
      destruct (copy_run k v (conj TW (conj T1 T2)) (A_new k Hk) c pb [] p c q) as (c' & X1 & X2 & _ & X4); auto.
      - intros x [].
      - split; [|split; [intros x []|split; [exact P2|]]].
        + intros x Hx idx. rewrite (P1 x Hx). apply DC. apply St_D. exact Hx.
        + rewrite <- E1. symmetry. apply (eval_eqx Dx); [exact DC|apply map_D; exact Hk].
      - intros y Hy. destruct (M_ok k Hk y Hy) as [M1 M2]. split; [intros J; apply M2, Wout, J|]. split; [|exact M2]. intros Q. apply M1. rewrite Q. apply in_map. exact Hk.
      - intros o' Ho' NW idx E'. rewrite <- (P4 o' Ho' NW idx E'). symmetry. apply DC. apply out_D; assumption.
      - exists c'. split; [exact X1|]. split; [|split; [|exact X2]].
        + intros x Nx idx. rewrite X2; [apply DC; exact Nx|intros J; apply Nx; left; exact J|]. intros Q. apply Nx. right. rewrite Q. apply in_map. exact Hk.
        + exists z. split; [exact E2|]. rewrite (X4 o Ho Qo [z] Eo). rewrite <- Qo. symmetry. apply P4; [exact Ho|rewrite Qo; apply A_new; exact Hk|exact Eo].
    Qed.
    Definition filled (l : list candidate) (c : store) : Prop := forall k, In k l -> exists z, eval (env_of d) (k_sub k) = Some z /\ c (k_tmp k) [] = d (k_cont k) [z].
    Lemma all_copies l : incl l ks -> NoDup (map k_tmp l) -> (forall k, In k l -> served k) -> forall rest c, eqx Dx d c ->
      exists c', eqx Dx d c' /\ filled l c' /\ (forall x, ~ Dx x -> forall idx, c' x idx = c x idx) /\
        forall o st, runs I rest c' o st -> runs I (fold_left (fun s k => SCons (NBlock (copy_block i pb k)) [] s) l rest) c o st.
    Proof.
      induction l as [|k l IH]; intros HI ND HS rest c DC.
      - exists c. split; [exact DC|]. split; [intros k []|]. split; [auto|]. intros o st R. exact R.
      - cbn [map] in ND. apply NoDup_cons_iff in ND as [NK ND].
        destruct (IH (fun x Hx => HI x (or_intror Hx)) ND (fun x Hx => HS x (or_intror Hx)) (SCons (NBlock (copy_block i pb k)) [] rest) c DC) as (c1 & D1 & F1 & U1 & R1).
        destruct (one_copy k c1 (HI k (or_introl eq_refl)) (HS k (or_introl eq_refl)) D1) as (c2 & X2 & D2 & F2 & U2).
        exists c2. split; [exact D2|]. split; [|split].
        + intros k' [<-|Hk']; [exact F2|]. destruct (F1 k' Hk') as (z & Z1 & Z2). exists z. split; [exact Z1|]. rewrite U2; [exact Z2| |].
          * intros J. apply (proj2 (proj2 (T_new k' (HI k' (or_intror Hk'))))). apply Wout. exact J.
          * intros Q. apply NK. rewrite <- Q. apply in_map. exact Hk'.
        + intros x Nx idx. rewrite U2; [apply U1; exact Nx|intros J; apply Nx; left; exact J|]. intros Q. apply Nx. right. rewrite Q. apply in_map. apply HI. left. reflexivity.
        + intros o st R. cbn [fold_left]. apply R1. eapply R_cons; [apply R_block; exact X2|reflexivity|exact R].
    Qed.
  End SECOND.
End COPY.

(** ** The rewritten body *)
Section REWRITE.
  Variable I : nat -> list Z -> option Z.
  Variable ks : list candidate.
  Variable D : string -> Prop.
  (** an access node is read through one memlet *)
  Fixpoint own_ins (via : nat -> list expr) (p : nat) (l : list operand) : Prop :=
    match l with [] => True | o :: r => match o with ORead _ s => via p = s | _ => True end /\ own_ins via (S p) r end.
  Fixpoint own_block (via : nat -> nat -> list expr) (q : nat) (b : block) : Prop :=
    match b with [] => True | o :: r => own_ins (via q) 0 (o_ins o) /\ own_block via (S q) r end.
  Fixpoint own_seq (via : nat -> nat -> nat -> list expr) (n : nat) (s : seq) : Prop :=
    match s with
    | SNil => True
    | SCons (NBlock b) _ r => own_block (via n) 0 b /\ own_seq via (S n) r
    | SCons _ _ r => own_seq via (S n) r
    end.
  Definition fills (d c : store) : Prop := forall k, In k ks -> exists z, eval (env_of d) (k_sub k) = Some z /\ c (k_tmp k) [] = d (k_cont k) [z].
  (** the names the rewriting relies on are not written *)
  Definition quiet (wr : list string) : Prop := forall k, In k ks -> ~ In (k_cont k) wr /\ ~ In (k_tmp k) wr /\ forall y, In y (atoms (k_sub k)) -> ~ In y wr.
  Lemma fills_kept l d c d' c' : quiet l -> fills d c -> (forall x, ~ In x l -> forall idx, d' x idx = d x idx) -> (forall x, ~ In x l -> forall idx, c' x idx = c x idx) -> fills d' c'.
  Proof.
    intros Q F Hd Hc k Hk. destruct (F k Hk) as (z & Z1 & Z2). destruct (Q k Hk) as (Q1 & Q2 & Q3). exists z. rewrite Hc, Hd by assumption. split; [|exact Z2].
    rewrite <- Z1. unfold eval. rewrite (ev_agree (env_of d') (env_of d)); [reflexivity|]. intros y Hy. apply Hd. apply Q3. exact Hy.
  Qed.
  Lemma hit_in x l k : hit ks x l = Some k -> In k ks /\ x = k_cont k /\ l = [k_sub k].
  Proof.
    unfold hit. intros H. apply find_some in H as [H1 H2]. apply andb_true_iff in H2 as [H2 H3]. apply String.eqb_eq in H2.
    destruct l as [|e [|]]; try discriminate. apply expr_eqb_eq in H3. subst. auto.
  Qed.
  Lemma rw_reads d c via l : eqx D d c -> fills d c -> forall p, own_ins via p l -> avoids D (concat (map opnames l)) -> reads_in c (rw_ins ks via p l) = reads_in d l.
  Proof.
    intros DC F. induction l as [|o l IH]; intros p OW AV; [reflexivity|]. cbn [own_ins] in OW. destruct OW as [O1 O2]. cbn [map concat] in AV. apply avoids_app in AV as [A1 A2].
    cbn [rw_ins reads_in]. rewrite (IH _ O2 A2). assert (E: read_in c (rw_in ks (via p) o) = read_in d o); [|rewrite E; reflexivity].
    destruct o as [z|x s]; [reflexivity|]. cbn [rw_in]. destruct (hit ks x (via p)) as [k|] eqn:E; [|symmetry; apply (read_in_eqx D); assumption].
    apply hit_in in E as (Hk & -> & E). rewrite O1 in E. subst s. destruct (F k Hk) as (z & Z1 & Z2).
    cbn [read_in evals]. rewrite E. cbn [evals]. rewrite Z1, Z2. reflexivity.
  Qed.
  Lemma rw_exec via b : forall q d c d', eqx D d c -> fills d c -> own_block via q b -> avoids D (block_reads b) -> quiet (map o_out b) ->
    exec_block I d b = Some d' -> exists c', exec_block I c (rw_block ks via q b) = Some c' /\ eqx D d' c' /\ fills d' c'.
  Proof.
    induction b as [|o b IH]; intros q d c d' DC F OW AV Q EX; [injection EX as <-; exists c; auto|].
    cbn [own_block] in OW. destruct OW as [O1 O2]. unfold block_reads in AV. cbn [map concat] in AV. apply avoids_app in AV as [A1 A2]. apply avoids_app in A1 as [A1 A3].
    cbn [exec_block] in EX. destruct (exec_op I d o) as [d1|] eqn:EO; [|discriminate]. unfold exec_op in EO. destruct (reads_in d (o_ins o)) as [vs|] eqn:ER; [|discriminate].
    destruct (evals (env_of d) (o_sub o)) as [idx|] eqn:ES; [|discriminate]. destruct (I (o_code o) vs) as [val|] eqn:EV; [|discriminate]. injection EO as <-.
    assert (EC: exec_op I c (rw_op ks (via q) o) = Some (wr c (o_out o) idx val)).
    { unfold exec_op, rw_op. cbn [o_ins o_sub o_code o_out]. rewrite (rw_reads d c _ _ DC F 0 O1 A1), ER, <- (evals_eqx D d c _ DC A3), ES, EV. reflexivity. }
    assert (F1: fills (wr d (o_out o) idx val) (wr c (o_out o) idx val)).
    { apply (fills_kept (map o_out (o :: b)) d c); [exact Q|exact F| |]; intros x Nx k; apply wr_name; intros J; apply Nx; left; exact J. }
    assert (Q1: quiet (map o_out b)).
    { intros k Hk. destruct (Q k Hk) as (Q1 & Q2 & Q3). split; [intros J; apply Q1; right; exact J|]. split; [intros J; apply Q2; right; exact J|]. intros y Hy J. apply (Q3 y Hy). right. exact J. }
    destruct (IH (S q) _ (wr c (o_out o) idx val) d' (eqx_wr _ _ _ _ _ _ DC) F1 O2 A2 Q1 EX) as (c' & C1 & C2 & C3).
    exists c'. cbn [rw_block exec_block]. rewrite EC. auto.
  Qed.
  Lemma quiet_sub l l' : incl l' l -> quiet l -> quiet l'.
  Proof. intros HI Q k Hk. destruct (Q k Hk) as (Q1 & Q2 & Q3). split; [intros J; apply Q1, HI, J|]. split; [intros J; apply Q2, HI, J|]. intros y Hy J. apply (Q3 y Hy), HI, J. Qed.
  Lemma rw_run via s : forall n d o d' c, runs I s d o d' -> eqx D d c -> fills d c -> own_seq via n s -> avoids D (sreads s) -> quiet (swrites s) ->
    exists c', runs I (rw_seq ks via n s) c o c' /\ eqx D d' c'.
  Proof.
    induction s as [|m a r IH]; intros n d o d' c R DC F OW AV Q.
    - inversion R; subst. exists c. split; [constructor|exact DC].
    - assert (AVm: avoids D (nreads m)) by (intros x Hx; apply AV; simpl; apply in_or_app; auto).
      assert (AVa: avoids D (asg_reads a)) by (intros x Hx; apply AV; simpl; rewrite !in_app_iff; auto).
      assert (AVr: avoids D (sreads r)) by (intros x Hx; apply AV; simpl; rewrite !in_app_iff; auto).
      assert (Qm: quiet (nwrites m)) by (eapply quiet_sub; [|exact Q]; intros x Hx; simpl; apply in_or_app; auto).
      assert (Qa: quiet (map fst a)) by (eapply quiet_sub; [|exact Q]; intros x Hx; simpl; rewrite !in_app_iff; auto).
      assert (Qr: quiet (swrites r)) by (eapply quiet_sub; [|exact Q]; intros x Hx; simpl; rewrite !in_app_iff; auto).
      assert (OWr: own_seq via (S n) r) by (cbn [own_seq] in OW; destruct m; [exact (proj2 OW)|..]; exact OW).
      (* the child *)
      assert (CH: forall o1 d1, run I m d o1 d1 -> exists m' c1, rw_seq ks via n (SCons m a r) = SCons m' a (rw_seq ks via (S n) r) /\ run I m' c o1 c1 /\ eqx D d1 c1 /\ fills d1 c1).
      { intros o1 d1 Rm. destruct m as [b|s|bs|s|k i0 init cc u s| | |r0].
        1: { inversion Rm; subst. cbn [own_seq] in OW. match goal with K : exec_block _ _ _ = _ |- _ => destruct (rw_exec (via n) b 0 d c d1 DC F (proj1 OW) AVm Qm K) as (c1 & C1 & C2 & C3) end.
             exists (NBlock (rw_block ks (via n) 0 b)), c1. split; [reflexivity|]. split; [constructor; exact C1|auto]. }
        all: match type of Rm with run _ ?M _ _ _ => destruct (run_frame I M d o1 d1 D c Rm DC AVm) as (c1 & C1 & C2); exists M, c1; split; [reflexivity|]; split; [exact C1|]; split; [exact C2|];
          apply (fills_kept (nwrites M) d c); [exact Qm|exact F| |]; intros x Nx idx; eapply run_writes; eauto end. }
      inversion R; subst.
      + match goal with K : run _ m _ ONorm ?d1 |- _ => destruct (CH _ _ K) as (m' & c1 & E & R1 & D1 & F1) end. rewrite E.
        match goal with K : exec_assigns _ _ = Some _ |- _ => destruct (exec_assigns_eqx D a _ c1 _ D1 AVa K) as (c2 & E2 & D2); rename K into EA end.
        match goal with K : runs _ r ?d2 _ _ |- _ => destruct (IH (S n) d2 o d' c2 K D2) as (c' & R' & D'); auto end.
        { apply (fills_kept (map fst a) _ c1 _ c2 Qa F1); intros x Nx idx; eapply exec_assigns_writes; eauto. }
        exists c'. split; [|exact D']. eapply R_cons; eauto.
      + match goal with K : run _ m _ _ _ |- _ => destruct (CH _ _ K) as (m' & c1 & E & R1 & D1 & F1) end. rewrite E. exists c1. split; [|exact D1]. apply R_exit; assumption.
  Qed.
End REWRITE.

(** ** Both loops *)
Fixpoint blocks_only (s : seq) : Prop := match s with SNil => True | SCons (NBlock _) _ r => blocks_only r | SCons _ _ _ => False end.
Lemma blocks_brk s : blocks_only s -> sbrk s = false /\ sret s = false.
Proof. induction s as [|m a r IH]; [auto|]. destruct m; simpl; try contradiction. exact IH. Qed.
Lemma runl_ends I i c u s st o st' : runl I i c u s st o st' -> sret s = false -> o = ONorm.
Proof. intros R NR. induction R; auto. exfalso. eapply (proj1 (proj2 (ret_out I))); eauto. Qed.

Section MAIN.
  Variable I : nat -> list Z -> option Z.
  Variables (i : string) (init1 : expr) (c1 : cond) (u1 : expr) (pb : block).
  Variables (j : string) (init2 : expr) (c2 : cond) (u2 : expr) (body : seq).
  Variable via : nat -> nat -> nat -> list expr.
  Variable ks : list candidate.
  Variable W : list string.
  Variable St : string -> Prop.
  Notation outs := (map o_out pb).
  Hypothesis St_i : ~ St i.
  Hypothesis W_out : incl W outs.
  Hypothesis W_St : forall x, In x W -> ~ St x.
  Hypothesis OK : ok_block i W St [] pb.
  Hypothesis NI : forall o, In o pb -> forall p, In p (o_ins o) -> forall s, p <> ORead i s.
  Hypothesis T_new : forall k, In k ks -> ~ St (k_tmp k) /\ k_tmp k <> i /\ ~ In (k_tmp k) outs /\ ~ In (k_tmp k) (snames body) /\ k_tmp k <> j /\ ~ In (k_tmp k) (catoms c2 ++ atoms u2).
  Hypothesis T_dis : NoDup (map k_tmp ks).
  Hypothesis A_new : forall k, In k ks -> ~ In (k_cont k) W.
  Hypothesis St_body : forall x, St x -> ~ In x (swrites body) /\ x <> j.
  Hypothesis out_body : forall x, In x outs -> ~ In x (swrites body) /\ x <> j /\ ~ In x (catoms c2 ++ atoms u2).
  Hypothesis W_body : forall x, In x W -> ~ In x (sreads body).
  Hypothesis sub_ok : forall k, In k ks -> forall y, In y (atoms (k_sub k)) -> ~ In y outs /\ ~ In y (map k_tmp ks) /\ ~ In y (swrites body).
  Hypothesis map_ok : forall k, In k ks -> forall y, In y (atoms (k_map k)) -> ~ In y (map k_tmp ks) /\ ~ In y outs.
  Hypothesis map_body : forall k, In k ks -> forall y, In y (atoms (k_map k)) -> ~ In y (swrites body).
  Hypothesis blk : blocks_only body.
  Hypothesis own : own_seq via 0 body.
  Hypothesis stab1 : stable i c1 u1 (SCons (NBlock pb) [] SNil).
  Hypothesis stab2 : stable j c2 u2 body.
  Notation D := (Dx W ks).
  Notation fused := (fused_body i pb ks via body).
  Lemma i_W : ~ In i W.
  Proof. intros J. apply (proj1 stab1). simpl. rewrite app_nil_r. apply W_out. exact J. Qed.

  Lemma copy_out k o : o_out (copy_op i k o) = k_tmp k \/ o_out (copy_op i k o) = o_out o.
  Proof. unfold copy_op. cbn [o_out]. destruct (String.eqb (o_out o) (k_cont k)); auto. Qed.
  Lemma rw_outs ks' via' b : forall q, map o_out (rw_block ks' via' q b) = map o_out b.
  Proof. induction b as [|o b IH]; intros q; [reflexivity|]. cbn [rw_block map]. rewrite IH. reflexivity. Qed.
  Lemma rw_writes s : forall n, swrites (rw_seq ks via n s) = swrites s.
  Proof.
    induction s as [|m a r IH]; intros n; [reflexivity|]. destruct m; cbn [rw_seq]; simpl; rewrite IH; try reflexivity. rewrite rw_outs. reflexivity.
  Qed.
  Lemma fused_writes l : forall rest x, In x (swrites (fold_left (fun s k => SCons (NBlock (copy_block i pb k)) [] s) l rest)) -> In x (swrites rest) \/ In x (map k_tmp l) \/ In x outs.
  Proof.
    induction l as [|k l IH]; intros rest x H; [left; exact H|]. cbn [fold_left] in H. apply IH in H as [H|[H|H]]; [|right; left; right; exact H|auto].
    simpl in H. apply in_app_or in H as [H|H]; [|left; exact H]. unfold copy_block in H. rewrite map_map in H. apply in_map_iff in H as (o & Q & Ho).
    right. destruct (copy_out k o) as [E|E]; rewrite E in Q; [left; left; exact Q|right; rewrite <- Q; apply in_map; exact Ho].
  Qed.
  Lemma stab_fused : stable j c2 u2 fused.
  Proof.
    destruct stab2 as [S1 S2]. split.
    - intros H. apply fused_writes in H as [H|[H|H]]; [rewrite rw_writes in H; contradiction| |exact (proj1 (proj2 (out_body j H)) eq_refl)].
      apply in_map_iff in H as (k & Q & Hk). destruct (T_new k Hk) as (_ & _ & _ & _ & N & _). congruence.
    - intros x Hx H. apply fused_writes in H as [H|[H|H]]; [rewrite rw_writes in H; exact (S2 x Hx H)| |exact (proj2 (proj2 (out_body x H)) Hx)].
      apply in_map_iff in H as (k & Q & Hk). destruct (T_new k Hk) as (_ & _ & _ & _ & _ & N). subst x. contradiction.
  Qed.
  Lemma D_body : avoids D (sreads body).
  Proof.
    intros x Hx [J|J]; [exact (W_body x J Hx)|]. apply in_map_iff in J as (k & Q & Hk). destruct (T_new k Hk) as (_ & _ & _ & N & _). apply N. rewrite Q.
    apply names_reads. exact Hx.
  Qed.
  (** the second loop, from a store [s1] that holds the producer's results *)
  Section TWO.
    Variable s1 : store.
    Variable ws : list Z.
    Hypothesis HS : forall d w k, In w ws -> In k ks -> d j [] = w -> (forall x, ~ In x (swrites body) -> x <> j -> forall idx, d x idx = s1 x idx) -> served I i W St pb d k.
    Lemma second l : incl l ws -> forall a b c, iterL (raw I j body) l a b -> eqx D a c -> (forall x, ~ In x (swrites body) -> x <> j -> forall idx, a x idx = s1 x idx) ->
      exists b', iterL (raw I j fused) l c b' /\ eqx D b b'.
    Proof.
      induction l as [|w l IH]; intros HI a b c L DC HA; cbn [iterL] in L.
      - exists c. split; [apply steq_intro; reflexivity|]. eapply eqx_trans; [apply steq_eqx, steq_sym'; exact L|exact DC].
      - destruct L as (m & (o & Ho & R) & L).
        assert (HD: forall x, ~ In x (swrites body) -> x <> j -> forall idx, wr a j [] w x idx = s1 x idx) by (intros x N1 N2 idx; rewrite wr_name by (intros Q; apply N2; symmetry; exact Q); apply HA; assumption).
        assert (T1: forall k, In k ks -> ~ St (k_tmp k) /\ k_tmp k <> i /\ ~ In (k_tmp k) outs) by (intros k Hk; destruct (T_new k Hk) as (A1 & A2 & A3 & _); auto).
        destruct (all_copies I i W St i_W W_St pb ks (wr a j [] w) OK NI W_out T1 A_new map_ok ks (incl_refl ks) T_dis) with (rest := rw_seq ks via 0 body) (c := wr c j [] w)
          as (c' & D1 & F1 & _ & R1); [intros k Hk; apply (HS (wr a j [] w) w k); [apply HI; left; reflexivity|exact Hk|apply Trace.wr_same|exact HD]|apply eqx_wr; exact DC|].
        assert (Qt: quiet ks (swrites body)).
        { intros k Hk. destruct (HS (wr a j [] w) w k) as (v & p & q & z & _ & _ & _ & _ & _ & _ & (o' & Ho' & Qo' & _)); [apply HI; left; reflexivity|exact Hk|apply Trace.wr_same|exact HD|].
          split; [intros J; apply (proj1 (out_body (k_cont k) ltac:(rewrite <- Qo'; apply in_map; exact Ho'))); exact J|].
          split; [intros J; destruct (T_new k Hk) as (_ & _ & _ & N & _); apply N; apply writes_names; exact J|]. intros y Hy. apply (sub_ok k Hk y Hy). }
        destruct (rw_run I ks D via body 0 _ _ _ c' R D1 F1 own D_body Qt) as (c2' & R2 & D2).
        destruct (IH (fun x Hx => HI x (or_intror Hx)) m b c2' L D2) as (b' & L' & D').
        { intros x N1 N2 idx. rewrite (runs_writes I body _ _ _ x idx R N1). apply HD; assumption. }
        exists b'. split; [|exact D']. cbn [iterL]. exists c2'. split; [|exact L']. exists o. split; [exact Ho|]. apply R1. exact R2.
    Qed.
  End TWO.
  Hypothesis init2_ok : forall y, In y (atoms init2 ++ catoms c2 ++ atoms u2) -> ~ In y outs.
  Lemma both k st o st' :
    (forall q v w idx, In q pb -> ~ In (o_out q) W -> v <> w -> evals (upd (env_of st) i v) (o_sub q) = Some idx -> evals (upd (env_of st) i w) (o_sub q) <> Some idx) ->
    (forall v0 vs e w0 ws f, eval (env_of st) init1 = Some v0 -> trip (env_of st) i c1 u1 v0 vs e ->
       eval (upd (env_of st) i e) init2 = Some w0 -> trip (upd (env_of st) i e) j c2 u2 w0 ws f ->
       forall w q, In w ws -> In q ks -> exists v z po, In v vs /\ eval (upd (upd (env_of st) i e) j w) (k_sub q) = Some z /\ eval (upd (upd (env_of st) i e) j w) (k_map q) = Some v /\
         In po pb /\ o_out po = k_cont q /\ evals (upd (env_of st) i v) (o_sub po) = Some [z]) ->
    runs I (SCons (NLoop KMap i init1 c1 u1 (SCons (NBlock pb) [] SNil)) [] (SCons (NLoop k j init2 c2 u2 body) [] SNil)) st o st' ->
    exists st'', runs I (SCons (NLoop KMap i init1 c1 u1 (SCons (NBlock pb) [] SNil)) [] (SCons (NLoop k j init2 c2 u2 fused) [] SNil)) st o st'' /\ eqx D st' st''.
  Proof.
    intros INJ COV R.
    assert (B1: blocks_only (SCons (NBlock pb) [] SNil)) by exact Logic.I.
    assert (EX1: forall st1, run I (NLoop KMap i init1 c1 u1 (SCons (NBlock pb) [] SNil)) st ONorm st1 ->
      forall o2 st2, run I (NLoop k j init2 c2 u2 body) st1 o2 st2 -> o2 = ONorm /\ exists st2', run I (NLoop k j init2 c2 u2 fused) st1 ONorm st2' /\ eqx D st2 st2').
    { intros s1 R1 o2 s2 R2. inversion R1; subst. inversion R2; subst.
      match goal with K : eval (env_of st) init1 = Some ?v |- _ => rename K into E1; rename v into va end.
      match goal with K : eval (env_of s1) init2 = Some ?v |- _ => rename K into E2; rename v into wa end.
      match goal with K : runl I i _ _ _ _ _ _ |- _ => rename K into L1 end. match goal with K : runl I j _ _ _ _ _ _ |- _ => rename K into L2 end.
      assert (o2 = ONorm) by (eapply runl_ends; [exact L2|apply blocks_brk; exact blk]). subst o2. split; [reflexivity|].
      destruct (loop_iter I i c1 u1 _ stab1 (proj1 (blocks_brk _ B1)) st va s1 L1) as (vs & b1 & T1 & IT1 & Q1). set (e := s1 i []) in *.
      destruct (loop_iter I j c2 u2 _ stab2 (proj1 (blocks_brk _ blk)) s1 wa s2 L2) as (ws & b2 & T2 & IT2 & Q2). set (f := s2 j []) in *.
      assert (KEEP: forall x, ~ In x outs -> x <> i -> forall idx, s1 x idx = st x idx).
      { intros x N1 N2 idx. apply (run_writes I _ _ _ _ x idx R1). simpl. rewrite app_nil_r. intros [Q|J]; [apply N2; symmetry; exact Q|contradiction]. }
      assert (ENV: forall y, ~ In y outs -> env_of s1 y = upd (env_of st) i e y).
      { intros y Ny. unfold upd. destruct (String.eqb_spec i y) as [<-|N]; [reflexivity|]. apply KEEP; auto. }
      assert (T2': trip (upd (env_of st) i e) j c2 u2 wa ws f).
      { eapply trip_agree; [|exact T2]. intros x Hx _. apply ENV. apply init2_ok. apply in_or_app. right. exact Hx. }
      assert (E2': eval (upd (env_of st) i e) init2 = Some wa).
      { rewrite <- E2. unfold eval. rewrite (ev_agree (upd (env_of st) i e) (env_of s1)); [reflexivity|]. intros y Hy. symmetry. apply ENV, init2_ok, in_or_app. left. exact Hy. }
      destruct (instances I i W St St_i pb (env_of st) OK INJ vs (trip_nodup _ _ _ _ _ _ _ T1) st b1 (fun x _ => eq_refl) IT1) as [BS BV].
      assert (NEi: forall x, x <> i -> forall idx, s1 x idx = b1 x idx) by (intros x N idx; rewrite (steq_at _ _ x idx Q1); apply wr_name; intros Q; apply N; symmetry; exact Q).
      destruct (second s1 ws) with (l := ws) (a := s1) (b := b2) (c := s1) as (b2' & IT2' & D2); auto.
      { intros d w q Hw Hq Dj Dk. destruct (COV va vs e wa ws f E1 T1 E2' T2' w q Hw Hq) as (v & z & po & Hv & Z1 & Z2 & P1 & P2 & P3). destruct (BV v Hv) as (p & r & A1 & A2 & A3 & A4).
        assert (DE: forall y, ~ In y outs -> ~ In y (swrites body) -> env_of d y = upd (upd (env_of st) i e) j w y).
        { intros y N1 N2. unfold upd at 1. destruct (String.eqb_spec j y) as [<-|N]; [exact Dj|]. rewrite <- ENV by exact N1. apply Dk; [exact N2|intros Q; apply N; symmetry; exact Q]. }
        exists v, p, r, z. split; [|split; [|split; [|split; [exact A2|split; [exact A3|split]]]]].
        - rewrite <- Z2. unfold eval. rewrite (ev_agree (env_of d) (upd (upd (env_of st) i e) j w)); [reflexivity|]. intros y Hy. apply DE; [exact (proj2 (map_ok q Hq y Hy))|]. exact (map_body q Hq y Hy).
        - rewrite <- Z1. unfold eval. rewrite (ev_agree (env_of d) (upd (upd (env_of st) i e) j w)); [reflexivity|]. intros y Hy. destruct (sub_ok q Hq y Hy) as (S1 & _ & S3). apply DE; assumption.
        - intros x Hx idx. rewrite (A1 x Hx). destruct (St_body x Hx) as [N1 N2]. rewrite (Dk x N1 N2). symmetry. apply KEEP; [|intros Q; subst x; contradiction].
          intros J. apply in_map_iff in J as (o' & Q & Ho'). apply (proj2 (outs_ok i W St pb [] o' OK Ho')). rewrite Q. exact Hx.
        - intros o' Ho' NW idx Eo. assert (IO: In (o_out o') outs) by (apply in_map; exact Ho'). destruct (out_body _ IO) as (N1 & N2 & _). rewrite (Dk _ N1 N2).
          rewrite NEi by exact (proj1 (outs_ok i W St pb [] o' OK Ho')). apply A4; assumption.
        - exists po. split; [exact P1|]. split; [exact P2|]. rewrite <- P3. apply (evals_at i W St pb (env_of st) OK po p v P1); [rewrite P2; apply A_new; exact Hq| |exact A2].
          intros x Hx. apply A1. exact Hx. }
      { apply incl_refl. }
      { apply eqx_refl. }
      destruct (iter_loop I j c2 u2 fused stab_fused ws s1 b2' wa f T2 IT2') as (s2' & L2' & Q2').
      exists s2'. split; [econstructor; eauto|]. eapply eqx_trans; [apply steq_eqx; exact Q2|]. eapply eqx_trans; [apply eqx_wr; exact D2|]. apply steq_eqx, steq_sym'. exact Q2'. }
    inversion R; subst.
    - match goal with K : exec_assigns _ [] = Some _ |- _ => simpl in K; injection K as <- end. match goal with K : run _ (NLoop KMap _ _ _ _ _) _ _ ?s |- _ => rename K into R1; rename s into s1 end.
      match goal with K : runs _ (SCons _ _ SNil) _ _ _ |- _ => inversion K; subst end.
      + match goal with K : exec_assigns _ [] = Some _ |- _ => simpl in K; injection K as <- end. match goal with K : run _ _ s1 _ ?s |- _ => destruct (EX1 s1 R1 _ _ K) as (_ & s2' & R2' & D2) end.
        match goal with K : runs _ SNil _ _ _ |- _ => inversion K; subst end. exists s2'. split; [|exact D2].
        eapply R_cons; [exact R1|reflexivity|]. eapply R_cons; [exact R2'|reflexivity|constructor].
      + match goal with K : run _ _ s1 _ _ |- _ => destruct (EX1 s1 R1 _ _ K) as (Q & _) end. contradiction.
    - exfalso. match goal with K : run _ (NLoop _ _ _ _ _ _) _ _ _ |- _ => inversion K; subst end.
      match goal with K : runl _ _ _ _ _ _ _ _, N : _ <> ONorm |- _ => apply N; eapply runl_ends; [exact K|apply (blocks_brk _ B1)] end.
  Qed.
End MAIN.
