(** Execution of a parallel map: iterations distributed over OpenMP threads and
    interleaved access by access.

    Modelled: opt/src/targets/omp/codegen/omp_map_dispatcher.cpp:27-106 (the text
    "#pragma omp parallel for schedule(...) private(...)" in front of the sequential
    for loop) together with the bodies' text (sdfg/src/codegen/dispatchers/, as IR.v).
    One step of a thread is one access to one memory cell (or a silent control step);
    an expression is evaluated after reading each of its symbols once, a tasklet
    reads its inputs and then stores its output (block_dispatcher.cpp:245-330).
    Simplified: interleavings of accesses (no weak memory: C65_no_data_race is what
    makes that adequate), no allocation of private heap containers (65-81, 88-98). *)
From Coq Require Import Permutation.
From Verif Require Import Sym SymFacts IR IRFacts IRRefine Trace.

(** What is still to be executed by one thread inside one iteration. *)
Inductive frame :=
| FN (n : node) | FS (s : seq) | FA (a : assigns) | FB (b : brs) | FO (b : block)
| FW (s : seq) | FL (i : string) (c : cond) (u : expr) (s : seq) | FU (i : string) (c : cond) (u : expr) (s : seq).
(** The next access: read [x] at [j] (through subset [e]), write it, go on with
    the frames, stop with an outcome, or undefined behaviour. *)
Inductive micro :=
| MRd (x : string) (e : list expr) (j : list Z) (k : Z -> micro)
| MWr (x : string) (e : list expr) (j : list Z) (v : Z) (k : micro)
| MGo (ks : list frame) | MStop (o : outcome) | MFail.

(** read the symbols [l], then continue with their values *)
Fixpoint rd_all (l : list string) (rho : env) (k : env -> micro) : micro :=
  match l with [] => k rho | x :: l' => MRd x [] [] (fun v => rd_all l' (upd rho x v) k) end.
Definition env0 : env := fun _ => 0.
(** break: while_dispatcher.cpp:60-73; continue: 76-89 *)
Fixpoint exit_brk (ks : list frame) : micro :=
  match ks with
  | [] => MStop OBrk
  | FW _ :: ks' | FU _ _ _ _ :: ks' => MGo ks'
  | _ :: ks' => exit_brk ks'
  end.
Fixpoint exit_cont (ks : list frame) : micro :=
  match ks with
  | [] => MStop OCont
  | FW s :: ks' => MGo (FW s :: ks')
  | FU i c u s :: ks' => MGo (FU i c u s :: ks')
  | _ :: ks' => exit_cont ks'
  end.

Section Threads.
  Variable I : nat -> list Z -> option Z.

  Definition rd_operand (o : operand) (k : Z -> micro) : micro :=
    match o with
    | OConst z => k z
    | ORead x sub => rd_all (concat (map atoms sub)) env0 (fun rho =>
        match evals rho sub with Some j => MRd x sub j k | None => MFail end)
    end.
  Fixpoint rd_operands (l : list operand) (k : list Z -> micro) : micro :=
    match l with [] => k [] | o :: l' => rd_operand o (fun v => rd_operands l' (fun vs => k (v :: vs))) end.
  Definition do_op (o : op) (next : micro) : micro :=
    rd_operands (o_ins o) (fun vs => rd_all (concat (map atoms (o_sub o))) env0 (fun rho =>
      match evals rho (o_sub o), I (o_code o) vs with
      | Some j, Some v => MWr (o_out o) (o_sub o) j v next
      | _, _ => MFail
      end)).

  (** the first access of the frames (same clauses as [run] of IR.v) *)
  Definition expand (ks : list frame) : micro :=
    match ks with
    | [] => MStop ONorm
    | FN (NBlock b) :: ks => MGo (FO b :: ks)
    | FN (NSeq s) :: ks => MGo (FS s :: ks)
    | FN (NIf b) :: ks => MGo (FB b :: ks)
    | FN (NWhile s) :: ks => MGo (FW s :: ks)
    | FN (NLoop _ i init c u s) :: ks =>
        rd_all (atoms init) env0 (fun rho => match eval rho init with Some v => MWr i [] [] v (MGo (FL i c u s :: ks)) | None => MFail end)
    | FN NBreak :: ks => exit_brk ks
    | FN NContinue :: ks => exit_cont ks
    | FN (NReturn r) :: _ => MStop (ORet r)
    | FS SNil :: ks => MGo ks
    | FS (SCons n a r) :: ks => MGo (FN n :: FA a :: FS r :: ks)
    | FA [] :: ks => MGo ks
    | FA ((x, e) :: a) :: ks =>
        rd_all (atoms e) env0 (fun rho => match eval rho e with Some v => MWr x [] [] v (MGo (FA a :: ks)) | None => MFail end)
    | FB BNil :: ks => MGo ks
    | FB (BCons c s r) :: ks =>
        rd_all (catoms c) env0 (fun rho => match cev rho c with Some true => MGo (FS s :: ks) | Some false => MGo (FB r :: ks) | None => MFail end)
    | FO [] :: ks => MGo ks
    | FO (o :: b) :: ks => do_op o (MGo (FO b :: ks))
    | FW s :: ks => MGo (FS s :: FW s :: ks)
    | FL i c u s :: ks =>
        rd_all (catoms c) env0 (fun rho => match cev rho c with Some true => MGo (FS s :: FU i c u s :: ks) | Some false => MGo ks | None => MFail end)
    | FU i c u s :: ks =>
        rd_all (atoms u) env0 (fun rho => match eval rho u with Some v => MWr i [] [] v (MGo (FL i c u s :: ks)) | None => MFail end)
    end.

  (** One thread: its copies of the private containers, what it does next, and the
      programs (iterations) it still has to execute after the current one. *)
  Record thread := Thr { own : store; at_ : micro; todo : list seq }.
  Variable priv : string -> bool.

  (** private containers are accessed in the thread's copy, all others in the
      shared memory *)
  Definition view (g own : store) : store := fun x j => if priv x then own x j else g x j.
  (** the step of a thread: its access, the shared memory and the thread after it *)
  Definition fire (g : store) (t : thread) : option (list event * store * thread) :=
    match at_ t with
    | MRd x e j k => Some ([Ev false x e j], g, Thr (own t) (k (view g (own t) x j)) (todo t))
    | MWr x e j v k =>
        Some ([Ev true x e j], (if priv x then g else wr g x j v), Thr (if priv x then wr (own t) x j v else own t) k (todo t))
    | MGo ks => Some ([], g, Thr (own t) (expand ks) (todo t))
    | MStop ONorm | MStop OCont =>
        match todo t with
        | [] => None
        | p :: ps => Some ([], g, Thr (own t) (MGo [FS p]) ps)
        end
    | MStop _ | MFail => None
    end.
  (** all its iterations are done *)
  Definition finished (t : thread) : Prop := (at_ t = MStop ONorm \/ at_ t = MStop OCont) /\ todo t = [].

  (** The team: any thread may take the next step. *)
  Inductive pstep : store * list thread -> store * list thread -> Prop :=
  | P_step g l t r ev g' t' : fire g t = Some (ev, g', t') -> pstep (g, l ++ t :: r) (g', l ++ t' :: r).
  Inductive psteps : nat -> store * list thread -> store * list thread -> Prop :=
  | PS_nil c : psteps O c c
  | PS_snoc n c d e : psteps n c d -> pstep d e -> psteps (S n) c e.
  (** a team starts with any contents of the private copies and any distribution *)
  Definition start (ws : list (store * list seq)) : list thread := map (fun w => Thr (fst w) (MStop ONorm) (snd w)) ws.
End Threads.

(** One iteration of "for (i = ...) body" for the value [v] of its variable: the
    thread sets its copy of [i] and executes the body. *)
Definition iteration (i : string) (body : seq) (v : Z) : seq := SCons (NSeq SNil) [(i, EInt v)] body.
(** threads with their private memory and the values of the iterations they execute *)
Definition omp_team (i : string) (body : seq) (ws : list (store * list Z)) : list (store * list seq) :=
  map (fun w => (fst w, map (iteration i body) (snd w))) ws.

(** omp_map_dispatcher.cpp:32-43 and Users::locals (users.cpp:1023-1041): the
    transient containers all of whose uses are in the body, if the body writes them
    ([outside]: the containers used elsewhere, including the map's header). The loop
    variable is private by the OpenMP rules for canonical loops. *)
Definition omp_private (transient : string -> bool) (outside : list string) (i : string) (body : seq) : string -> bool :=
  fun x => String.eqb x i || (transient x && existsb (String.eqb x) (swrites body) && negb (existsb (String.eqb x) outside)).
