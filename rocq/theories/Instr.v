(** The instrumentation runtime, rtl/src/instrumentation.cpp. *)
From Coq Require Import List String ZArith QArith Bool Arith Lia.
Import ListNotations.
Local Open Scope string_scope.
Local Open Scope list_scope.
Local Open Scope nat_scope.

(** daisy_rtl.h:11-15 *)
Inductive evset := CPU | CUDA | NOEV.
(** Aggregated statistics; doubles are rationals here (no rounding). *)
Record stat := Stat { q_n : Z; q_mean : Q; q_var : Q; q_min : Q; q_max : Q }.
(** instrumentation.cpp:726-733 (runtime), 764-781 (counters), 857-873 (metrics): Welford's update *)
Definition welford (s : stat) (x : Q) : stat :=
  let n := (q_n s + 1)%Z in
  let d1 := (x - q_mean s)%Q in
  let mean := (q_mean s + d1 / inject_Z n)%Q in
  let d2 := (x - mean)%Q in
  Stat n mean (q_var s + (d1 * d2 - q_var s) / inject_Z n)%Q
       (if Qlt_le_dec x (q_min s) then x else q_min s) (if Qlt_le_dec (q_max s) x then x else q_max s).
(** 719-725, 838-846 *)
Definition first_stat (x : Q) : stat := Stat 1 x 0 x x.
(** 754-760 *)
Definition ll_max : Q := inject_Z (2 ^ 63 - 1).
Definition ll_min : Q := inject_Z (- 2 ^ 63).
Definition empty_stat : stat := Stat 0 0 0 ll_max ll_min.

(** struct DaisyRegion, 84-125.  [r_papi]: the PAPI event set, None for -1.  [r_rt] None: runtime_n = 0.
    [r_cnt] []: mean.empty().  Of the metadata only the uuid matters here. *)
Record region := Rg {
  r_uuid : string; r_set : evset; r_papi : option nat;
  r_last : list Z; r_starts : list Z; r_durs : list Z; r_counts : list (list Z);
  r_first : Z; r_begin : Z; r_rt : option stat; r_cnt : list stat; r_static : list (string * stat) }.
(** class DaisyInstrumentationState, 141-160; unordered maps are functions.  [p_live]: the event sets PAPI
    knows, with whether they are running. *)
Record cfg := Cfg { c_agg : bool; c_cpu : list string; c_cuda : list string }.
Record state := Stt {
  s_next : nat; s_regs : nat -> option region; s_names : string -> option nat;
  s_sleep : list string; s_ids : string -> option nat; p_next : nat; p_live : nat -> option bool }.
Definition init : state := Stt 1 (fun _ => None) (fun _ => None) [] (fun _ => None) 0 (fun _ => None).
Definition setn {A} (f : nat -> A) (k : nat) (v : A) : nat -> A := fun x => if Nat.eqb x k then v else f x.
Definition sets {A} (f : string -> A) (k : string) (v : A) : string -> A := fun x => if String.eqb x k then v else f x.
Definition cache_size : nat := 10.

(** A call of the API; [Metric] stands for increment and metric (949-955). *)
Inductive call := Init (u : string) (e : evset) | Enter (id : nat) | Exit (id : nat) | Metric (id : nat) (n : string) (v : Q) | Finalize (id : nat).
(** What the environment shows at a call: the clock, and the values PAPI_read gives for the running event set. *)
Record env := Env { now : Z; rd : nat -> Z }.
(** Dead: exit(EXIT_FAILURE).  Undef: undefined behaviour (an access outside a vector). *)
Inductive res := Ret (id : nat) (s : state) | Dead | Undef.

Section Step.
  Variable c : cfg.
  Definition events (e : evset) : list string := match e with CPU => c_cpu c | CUDA => c_cuda c | NOEV => [] end.
  Definition nev (e : evset) : nat := List.length (events e).
  (** PAPI_start: an empty event set is not started (the error is ignored). *)
  Definition papi_start (e : evset) (h : option nat) (p : nat -> option bool) : nat -> option bool :=
    match h with
    | Some h => if Nat.eqb (nev e) 0 then p else match p h with Some _ => setn p h (Some true) | None => p end
    | None => p end.
  (** PAPI_stop, called if there are events (887-894) *)
  Definition papi_stop (e : evset) (h : option nat) (p : nat -> option bool) : nat -> option bool :=
    match h with
    | Some h => if Nat.eqb (nev e) 0 then p else match p h with Some _ => setn p h (Some false) | None => p end
    | None => p end.
  (** PAPI_read into a zeroed vector *)
  Definition papi_read (e : evset) (h : option nat) (p : nat -> option bool) (v : nat -> Z) : list Z :=
    match h with
    | Some h => match p h with Some true => map v (seq 0 (nev e)) | _ => repeat 0%Z (nev e) end
    | None => repeat 0%Z (nev e) end.
  (** PAPI_cleanup_eventset and PAPI_destroy_eventset fail on an unknown or running set *)
  Definition papi_destroy (h : option nat) (p : nat -> option bool) : option (nat -> option bool) :=
    match h with Some h => match p h with Some false => Some (setn p h None) | _ => None end | None => None end.
  Definition set_papi (r : region) (h : option nat) : region :=
    Rg (r_uuid r) (r_set r) h (r_last r) (r_starts r) (r_durs r) (r_counts r) (r_first r) (r_begin r) (r_rt r) (r_cnt r) (r_static r).
  Definition new_region (u : string) (e : evset) : region := Rg u e None [] [] [] [] 0 0 None [] [].

  (** register_region, 588-666.  PAPI_create_eventset fails when the handle is not PAPI_NULL; adding the named
      events is assumed to succeed. *)
  Definition register (u : string) (e : evset) (s : state) : res :=
    match s_ids s u with
    | Some id =>
        match s_regs s id with
        | Some r => Ret id (Stt (s_next s) (s_regs s) (s_names s) (remove string_dec u (s_sleep s)) (sets (s_ids s) u None) (p_next s) (papi_start (r_set r) (r_papi r) (p_live s)))
        | None => Undef end
    | None =>
        match s_names s u with
        | Some id =>
            match s_regs s id with
            | Some r => match r_papi r with
                | Some _ => Dead
                | None => let h := p_next s in
                    Ret id (Stt (s_next s) (setn (s_regs s) id (Some (set_papi r (Some h)))) (s_names s) (s_sleep s) (s_ids s) (S h)
                                (papi_start (r_set r) (Some h) (setn (p_live s) h (Some false)))) end
            | None => Undef end
        | None =>
            let h := p_next s in let id := s_next s in
            Ret id (Stt (S id) (setn (s_regs s) id (Some (set_papi (new_region u e) (Some h)))) (sets (s_names s) u (Some id)) (s_sleep s) (s_ids s) (S h)
                        (papi_start e (Some h) (setn (p_live s) h (Some false))))
        end
    end.

  (** enter_region, 668-700 *)
  Definition enter (v : env) (s : state) (r : region) : region :=
    let last := if Nat.eqb (nev (r_set r)) 0 then r_last r else papi_read (r_set r) (r_papi r) (p_live s) (rd v) in
    if c_agg c then Rg (r_uuid r) (r_set r) (r_papi r) last (r_starts r) (r_durs r) (r_counts r)
                       (if Z.eqb (r_first r) 0 then now v else r_first r) (now v) (r_rt r) (r_cnt r) (r_static r)
    else Rg (r_uuid r) (r_set r) (r_papi r) last (r_starts r ++ [now v]) (r_durs r) (r_counts r) (r_first r) (r_begin r) (r_rt r) (r_cnt r) (r_static r).

  (** exit_region, 702-825 (the branches for CPU and CUDA are the same); None: starts.back() of an empty vector or
      last_counts out of range *)
  Fixpoint minus (a b : list Z) : option (list Z) :=
    match a, b with
    | [], _ => Some []
    | x :: a, y :: b => option_map (cons (x - y)%Z) (minus a b)
    | _ :: _, [] => None end.
  Fixpoint welfords (l : list stat) (xs : list Z) : list stat :=
    match l, xs with s :: l, x :: xs => welford s (inject_Z x) :: welfords l xs | _, _ => l end.
  Definition exit_counts (v : env) (s : state) (r : region) : option region :=
    if Nat.eqb (nev (r_set r)) 0 then Some r
    else match minus (papi_read (r_set r) (r_papi r) (p_live s) (rd v)) (r_last r) with
         | None => None
         | Some cs =>
             if c_agg c then
               let l := match r_cnt r with [] => repeat empty_stat (List.length cs) | l => l end in
               Some (Rg (r_uuid r) (r_set r) (r_papi r) (r_last r) (r_starts r) (r_durs r) (r_counts r) (r_first r) (r_begin r) (r_rt r) (welfords l cs) (r_static r))
             else Some (Rg (r_uuid r) (r_set r) (r_papi r) (r_last r) (r_starts r) (r_durs r) (r_counts r ++ [cs]) (r_first r) (r_begin r) (r_rt r) (r_cnt r) (r_static r))
         end.
  Definition exit_time (v : env) (r : region) : option region :=
    if c_agg c then
      let d := inject_Z (now v - r_begin r) in
      Some (Rg (r_uuid r) (r_set r) (r_papi r) (r_last r) (r_starts r) (r_durs r) (r_counts r) (r_first r) (r_begin r)
               (Some match r_rt r with None => first_stat d | Some q => welford q d end) (r_cnt r) (r_static r))
    else match r_starts r with
         | [] => None
         | _ => Some (Rg (r_uuid r) (r_set r) (r_papi r) (r_last r) (r_starts r) (r_durs r ++ [(now v - last (r_starts r) 0)%Z]) (r_counts r)
                         (r_first r) (r_begin r) (r_rt r) (r_cnt r) (r_static r)) end.

  (** provided_metric, 827-874 *)
  Fixpoint metric_in (l : list (string * stat)) (n : string) (x : Q) : list (string * stat) :=
    match l with
    | [] => [(n, first_stat x)]
    | (m, q) :: l => if String.eqb m n then (m, welford q x) :: l else (m, q) :: metric_in l n x end.
  Definition metric (n : string) (x : Q) (r : region) : region :=
    Rg (r_uuid r) (r_set r) (r_papi r) (r_last r) (r_starts r) (r_durs r) (r_counts r) (r_first r) (r_begin r) (r_rt r) (r_cnt r) (metric_in (r_static r) n x).

  Definition put (s : state) (id : nat) (r : region) : state :=
    Stt (s_next s) (setn (s_regs s) id (Some r)) (s_names s) (s_sleep s) (s_ids s) (p_next s) (p_live s).

  (** finalize, 876-926 *)
  Definition evict (s : state) : res :=
    if Nat.ltb cache_size (List.length (s_sleep s)) then
      match s_sleep s with
      | [] => Undef
      | w :: l =>
          match s_ids s w with
          | Some id => match s_regs s id with
              | Some r => match papi_destroy (r_papi r) (p_live s) with
                  | Some p => Ret 0 (Stt (s_next s) (setn (s_regs s) id (Some (set_papi r None))) (s_names s) l (sets (s_ids s) w None) (p_next s) p)
                  | None => Dead end
              | None => Undef end
          | None => Undef end
      end
    else Ret 0 s.
  Definition finalize (s : state) (id : nat) (r : region) : res :=
    let p := papi_stop (r_set r) (r_papi r) (p_live s) in
    let u := r_uuid r in
    match s_ids s u with
    | None => evict (Stt (s_next s) (s_regs s) (s_names s) (s_sleep s ++ [u]) (sets (s_ids s) u (Some id)) (p_next s) p)
    | Some _ => evict (Stt (s_next s) (s_regs s) (s_names s) (s_sleep s) (s_ids s) (p_next s) p)
    end.

  (** Each call holds the mutex from beginning to end, so concurrent calls happen one after the other. *)
  Definition step (v : env) (k : call) (s : state) : res :=
    match k with
    | Init u e => register u e s
    | Enter id => match s_regs s id with Some r => Ret 0 (put s id (enter v s r)) | None => Dead end
    | Exit id => match s_regs s id with
        | Some r => match exit_time v r with
            | Some r1 => match exit_counts v s r1 with Some r2 => Ret 0 (put s id r2) | None => Undef end
            | None => Undef end
        | None => Dead end
    | Metric id n x => match s_regs s id with Some r => Ret 0 (put s id (metric n x r)) | None => Dead end
    | Finalize id => match s_regs s id with Some r => finalize s id r | None => Dead end
    end.

  (** ~DaisyInstrumentationState, 512-531: the event sets of the sleeping regions *)
  Fixpoint shutdown (l : list string) (s : state) : res :=
    match l with
    | [] => Ret 0 (Stt (s_next s) (s_regs s) (fun _ => None) [] (fun _ => None) (p_next s) (p_live s))
    | w :: l => match s_ids s w with
        | Some id => match s_regs s id with
            | Some r => match papi_destroy (r_papi r) (p_live s) with
                | Some p => shutdown l (Stt (s_next s) (setn (s_regs s) id (Some (set_papi r None))) (s_names s) (s_sleep s) (s_ids s) (p_next s) p)
                | None => Dead end
            | None => Undef end
        | None => Undef end
    end.
End Step.

(* ---------------------------------------------------------------- *)
(** * Histories of instrumented code *)
(** The code generated around an element (instrumentation_plan.cpp:21-146) keeps the id returned by init in a
    variable of its own and passes it to the other calls; [u]: the region uuid. *)
Inductive hev := HInit (u : string) (e : evset) | HEnter (u : string) | HExit (u : string) | HMetric (u : string) (n : string) (x : Q) | HFin (u : string).
Definition uuid (h : hev) : string := match h with HInit u _ | HEnter u | HExit u | HMetric u _ _ | HFin u => u end.
Definition call_of (ids : string -> nat) (h : hev) : call :=
  match h with HInit u e => Init u e | HEnter u => Enter (ids u) | HExit u => Exit (ids u) | HMetric u n x => Metric (ids u) n x | HFin u => Finalize (ids u) end.
Inductive out := Up (s : state) (ids : string -> nat) | Down | Bad.
Definition hstep (c : cfg) (o : out) (e : env * hev) : out :=
  match o with
  | Up s ids => match step c (fst e) (call_of ids (snd e)) s with
      | Ret id s' => Up s' (match snd e with HInit u _ => sets ids u id | _ => ids end)
      | Dead => Down | Undef => Bad end
  | o => o end.
Definition drive (c : cfg) (o : out) (H : list (env * hev)) : out := fold_left (hstep c) H o.
Definition boot : out := Up init (fun _ => 0).
