(** The trace file the instrumentation runtime writes at the end of the program (rtl/src/instrumentation.cpp). *)
From Coq Require Import List String Ascii ZArith QArith Bool Arith Lia.
From Verif Require Import Capture Instr.
Import ListNotations.
Local Open Scope string_scope.
Local Open Scope list_scope.
Local Open Scope nat_scope.

(** The text is modelled by its JSON tokens (white space left out); a string is what stands between the quotes. *)
Inductive tok := LB | RB | LS | RS | Comma | Colon | Str (s : string) | Num (q : Q) | Boo (b : bool).
Definition int (z : Z) : tok := Num (inject_Z z).

(** struct __daisy_metadata, daisy_rtl.h:17-53 (a null pointer is None) *)
Record meta := Md {
  m_file : string; m_fun : string; m_lb : Z; m_le : Z; m_cb : Z; m_ce : Z;
  m_sdfg : option string; m_sfile : option string; m_cap : option string; m_feat : option string; m_rep : option string;
  m_eid : Z; m_etype : string; m_target : option string;
  m_idx : Z; m_loops : Z; m_maps : Z; m_fors : Z; m_whiles : Z; m_depth : Z;
  m_pn : bool; m_pp : bool; m_el : bool; m_se : bool }.
(** std::filesystem::path(f).filename(): what follows the last slash *)
Fixpoint filename (acc s : string) : string :=
  match s with EmptyString => acc | String a r => if Ascii.eqb a "/" then filename "" r else filename (append acc (String a "")) r end.

Section Out.
  Variables (c : cfg) (md : string -> meta) (pid tid : Z).
  Definition or_empty (o : option string) : string := match o with Some s => s | None => "" end.
  Definition title (m : meta) : string := append (m_fun m) (append " [L" (append (to_string_z (m_lb m)) (append "-" (append (to_string_z (m_le m)) "]")))).
  (** 203-212 and 332-338: common head of an entry *)
  Definition head (cat : string) (m : meta) : list tok :=
    [LB; Str "ph"; Colon; Str "X"; Comma; Str "cat"; Colon; Str cat; Comma; Str "name"; Colon; Str (title m); Comma;
     Str "pid"; Colon; int pid; Comma; Str "tid"; Colon; int tid; Comma].
  (** 219-229 *)
  Definition location (m : meta) : list tok :=
    [Str "function"; Colon; Str (m_fun m); Comma; Str "module"; Colon; Str (filename "" (m_file m)); Comma;
     Str "source_ranges"; Colon; LS; LB; Str "file"; Colon; Str (m_file m); Comma;
     Str "from"; Colon; LB; Str "line"; Colon; int (m_lb m); Comma; Str "col"; Colon; int (m_cb m); RB; Comma;
     Str "to"; Colon; LB; Str "line"; Colon; int (m_le m); Comma; Str "col"; Colon; int (m_ce m); RB; RB; RS; Comma].
  (** 231-259, without what follows the last value *)
  Definition docc (m : meta) : list tok :=
    [Str "docc"; Colon; LB; Str "sdfg_name"; Colon; Str (or_empty (m_sdfg m)); Comma; Str "sdfg_file"; Colon; Str (or_empty (m_sfile m)); Comma;
     Str "arg_capture_path"; Colon; Str (or_empty (m_cap m)); Comma; Str "features_file"; Colon; Str (or_empty (m_feat m)); Comma;
     Str "opt_report_file"; Colon; Str (or_empty (m_rep m))].
  (** 261-284 *)
  Definition element (m : meta) : list tok :=
    [Str "element_id"; Colon; int (m_eid m); Comma; Str "element_type"; Colon; Str (m_etype m); Comma; Str "loopnest_index"; Colon; int (m_idx m); Comma;
     Str "loop_info"; Colon; LB; Str "loopnest_index"; Colon; int (m_idx m); Comma; Str "num_loops"; Colon; int (m_loops m); Comma;
     Str "num_maps"; Colon; int (m_maps m); Comma; Str "num_fors"; Colon; int (m_fors m); Comma; Str "num_whiles"; Colon; int (m_whiles m); Comma;
     Str "max_depth"; Colon; int (m_depth m); Comma; Str "is_perfectly_nested"; Colon; Boo (m_pn m); Comma;
     Str "is_perfectly_parallel"; Colon; Boo (m_pp m); Comma; Str "is_elementwise"; Colon; Boo (m_el m); Comma; Str "has_side_effects"; Colon; Boo (m_se m); RB].
  Definition named (m : meta) : bool := match m_sdfg m, m_sfile m with Some _, Some _ => true | _, _ => false end.
  (** 286-291 *)
  Definition target (m : meta) : list tok := [Str "target_type"; Colon; Str (or_empty (m_target m)); Comma].
  (** for (i = 0; i < n; ++i) { f(i); if (i < n - 1) "," } : 297-302, 566-576 *)
  Definition loop (n : nat) (f : nat -> list tok) : list tok := flat_map (fun i => f i ++ if Nat.ltb i (n - 1) then [Comma] else []) (seq 0 n).
  Definition us (ns : Q) : Q := (ns / 1000)%Q.
  (** append_event, 175-310 *)
  Definition append_event (r : region) (index : nat) : list tok :=
    let m := md (r_uuid r) in
    head "region,daisy" m ++
    match nth_error (r_starts r) index with Some t => [Str "ts"; Colon; int (Z.quot t 1000); Comma] | None => [] end ++
    match nth_error (r_durs r) index with Some d => [Str "dur"; Colon; Num (us (inject_Z d)); Comma] | None => [] end ++
    [Str "args"; Colon; LB] ++ location m ++ docc m ++ [Comma] ++ (if named m then element m else []) ++ [RB; Comma] ++ target m ++
    [Str "metrics"; Colon; LB] ++
    match nth_error (r_counts r) index with
    | Some cs => loop (List.length cs) (fun i => [Str (nth i (events c (r_set r)) ""); Colon; int (nth i cs 0%Z)])
    | None => [] end ++ [RB; RB; RB].
  Definition stats (k : string) (q : stat) : list tok :=
    [Str k; Colon; LB; Str "mean"; Colon; Num (q_mean q); Comma; Str "variance"; Colon; Num (q_var q); Comma; Str "count"; Colon; int (q_n q); Comma;
     Str "min"; Colon; Num (q_min q); Comma; Str "max"; Colon; Num (q_max q); RB].
  (** the members of a region that was never left, 106-110; runtime_min and runtime_max are not initialised: any number *)
  Variable junk : Q * Q.
  Definition runtime (r : region) : stat := match r_rt r with Some q => q | None => Stat 0 0 0 (fst junk) (snd junk) end.
  Definition us_stat (q : stat) : stat := Stat (q_n q) (us (q_mean q)) (us (q_var q)) (us (q_min q)) (us (q_max q)).
  (** append_event_aggregated, 313-454; None: mean[i] outside the vector *)
  Definition append_aggregated (r : region) : option (list tok) :=
    let m := md (r_uuid r) in
    if Nat.ltb (List.length (r_cnt r)) (List.length (events c (r_set r))) then None
    else Some (
      head "aggregated_region,daisy" m ++ [Str "ts"; Colon; int (Z.quot (r_first r) 1000); Comma] ++
      [Str "dur"; Colon; Num (us (q_mean (runtime r) * inject_Z (q_n (runtime r)))); Comma] ++
      [Str "args"; Colon; LB] ++ location m ++ docc m ++ (if named m then Comma :: element m else []) ++ [RB; Comma] ++ target m ++
      [Str "metrics"; Colon; LB] ++
      flat_map (fun i => stats (nth i (events c (r_set r)) "") (nth i (r_cnt r) empty_stat) ++ [Comma]) (seq 0 (List.length (events c (r_set r)))) ++
      flat_map (fun p => stats (append "static:::" (fst p)) (snd p) ++ [Comma]) (r_static r) ++
      stats "runtime" (us_stat (runtime r)) ++ [RB; RB; RB]).
  (** ~DaisyInstrumentationState, 533-586; [rs]: the regions in the order of the map *)
  Fixpoint all_some {A} (l : list (option A)) : option (list A) :=
    match l with [] => Some [] | Some x :: l => option_map (cons x) (all_some l) | None :: _ => None end.
  Definition trace_file (rs : list region) : option (list tok) :=
    let body := map (fun r => if c_agg c then append_aggregated r else Some (loop (List.length (r_starts r)) (append_event r))) rs in
    option_map (fun bs => [LB; Str "traceEvents"; Colon; LS] ++ loop (List.length bs) (fun i => nth i bs []) ++ [RS; RB]) (all_some body).
End Out.

(** split_string, 163-173 *)
Fixpoint split_at (acc : string) (s : string) : list string :=
  match s with
  | EmptyString => [acc]
  | String a r => if Ascii.eqb a "," then acc :: split_at "" r else split_at (append acc (String a "")) r end.
Definition split_string (s : string) : list string := match s with EmptyString => [] | _ => split_at "" s end.

(** instrumentation_plan.cpp:59: the uuid of the region of an element *)
Definition region_uuid (sdfg : string) (element_id : N) : string := append sdfg (append "_" (to_string_u element_id)).
