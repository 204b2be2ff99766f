(** CUDA kernels generated for a map and the CUDA maps nested in it.

    Modelled: opt/src/targets/cuda/cuda_map_dispatcher.cpp (the kernel's text, its
    launch configuration), opt/src/transformations/offloading/
    cuda_parallelize_nested_map.cpp:20-68 (when a nested map becomes the next
    dimension). A thread executes its program access by access, interleaved with all
    other threads (Par.v).
    Simplified: hardware limits of the launch configuration, memory transfers and
    barriers are not modelled; the symbols of expressions are exact integers except
    the coordinates, which are computed in C's [int]. *)
From Verif Require Import Sym SymFacts SymFuns Lin IR IRFacts PassCFG Par.

(** Schedule of a CUDA map (cuda.h:32-50): dimension (0 X, 1 Y, 2 Z), block size,
    nested_sync. Maps are identified by their induction variable. *)
Record csched := Sch { c_dim : nat; c_bs : Z; c_sync : bool }.

Section Kernel.
  Variables (A : assumptions) (cuda : string -> option csched).
  (** find_nested_cuda_iterations, 369-429: init must be 0 and the stride 1; the
      number of iterations is canonical_bound / 1 - 0. *)
  Definition iterations (i : string) (init : expr) (c : cond) (u : expr) : option expr :=
    if expr_eqb init (EInt 0) then
      match stride i u with
      | Some 1 => canonical_bound (series_is_monotonic u i A) i c
      | _ => None
      end
    else None.
  (** dispatch_kernel_body, 176-234: a CUDA map is printed as
      "if (i < iterations) { body }", without the test if nested_sync is set;
      everything else is printed as in a sequential function. *)
  Fixpoint kernN (n : node) : option node :=
    match n with
    | NSeq s => option_map NSeq (kernS s)
    | NIf b => option_map NIf (kernB b)
    | NWhile s => option_map NWhile (kernS s)
    | NLoop k i init c u s =>
        match k, cuda i with
        | KMap, Some sc =>
            match iterations i init c u, kernS s with
            | Some b, Some s' => Some (if c_sync sc then NSeq s' else NIf (BCons (CLt (ESym i) b) s' BNil))
            | _, _ => None
            end
        | _, _ => option_map (NLoop k i init c u) (kernS s)
        end
    | _ => Some n
    end
  with kernS (s : seq) : option seq :=
    match s with
    | SNil => Some SNil
    | SCons n a r => match kernN n, kernS r with Some n', Some r' => Some (SCons n' a r') | _, _ => None end
    end
  with kernB (b : brs) : option brs :=
    match b with
    | BNil => Some BNil
    | BCons c s r => match kernS s, kernB r with Some s', Some r' => Some (BCons c s' r') | _, _ => None end
    end.
  (** the CUDA maps of the kernel: variable, schedule, number of iterations *)
  Fixpoint cmapsN (n : node) : list (string * csched * option expr) :=
    match n with
    | NSeq s | NWhile s => cmapsS s
    | NIf b => cmapsB b
    | NLoop k i init c u s =>
        match k, cuda i with KMap, Some sc => [(i, sc, iterations i init c u)] | _, _ => [] end ++ cmapsS s
    | _ => []
    end
  with cmapsS (s : seq) : list (string * csched * option expr) :=
    match s with SNil => [] | SCons n a r => cmapsN n ++ cmapsS r end
  with cmapsB (b : brs) : list (string * csched * option expr) :=
    match b with BNil => [] | BCons c s r => cmapsS s ++ cmapsB r end.

  (** divide_ceil (symbolic.cpp:56-65) and max with one, 123-128 *)
  Definition num_blocks (closed : bool) (n bs : Z) : Z :=
    Z.max (if closed then ceil_div n bs else Z.quot (n + (bs - 1)) bs) 1.
  (** find_nested_cuda_blocksize and find_nested_cuda_iterations return at the first
      map of the dimension they meet; [order] is the order of the hash set the maps
      are in. No map of the dimension: one block of one thread. *)
  Definition launch (order : list (string * csched * option expr)) (st : store) (d : nat) : option (Z * Z) :=
    match find (fun m => Nat.eqb (c_dim (snd (fst m))) d) order with
    | None => Some (1, 1)
    | Some (_, sc, Some b) =>
        match eval (env_of st) b with
        | Some n => Some (c_bs sc, num_blocks (match atoms b with [] => true | _ => false end) n (c_bs sc))
        | None => None
        end
    | Some (_, _, None) => None
    end.
  Definition upto (n : Z) : list Z := map Z.of_nat (List.seq 0 (Z.to_nat n)).
  (** "int i = threadIdx + blockIdx * blockDim", 296-331: unsigned 32-bit arithmetic
      converted to int *)
  Definition coords (bs nb : Z) : list Z := flat_map (fun b => map (fun t => swrap 32 (t + b * bs)) (upto bs)) (upto nb).
  Fixpoint prod (l : list (list Z)) : list (list Z) :=
    match l with [] => [[]] | r :: l' => flat_map (fun v => map (cons v) (prod l')) r end.
  (** the coordinates (x, y, z) of all threads of the launch *)
  Definition grid (order : list (string * csched * option expr)) (st : store) : option (list (list Z)) :=
    match launch order st 0, launch order st 1, launch order st 2 with
    | Some (bx, nx), Some (by_, ny), Some (bz, nz) => Some (prod [coords bx nx; coords by_ ny; coords bz nz])
    | _, _, _ => None
    end.
  (** dispatch_kernel_preamble, 319-331: "int i = __daisy_cuda_indvar_d;" for every
      variable of a CUDA map, then the kernel's body *)
  Definition declare (ms : list (string * csched * option expr)) (xs : list Z) : assigns :=
    map (fun m => (fst (fst m), EInt (nth (c_dim (snd (fst m))) xs 0))) ms.
  Definition thread_program (ms : list (string * csched * option expr)) (k : seq) (xs : list Z) : seq :=
    SCons (NSeq SNil) (declare ms xs) k.
End Kernel.

(** 60-103 and 186-205: the coordinates and the containers used only in the kernel
    are declared in it, so every thread has its own copy. *)
Definition cuda_private (transient : string -> bool) (outside : list string) (ms : list (string * csched * option expr)) : string -> bool :=
  fun x => existsb (fun m => String.eqb x (fst (fst m))) ms || (transient x && negb (existsb (String.eqb x) outside)).

(** CUDAParallelizeNestedMap::can_be_applied, 20-68: [parents] are the enclosing
    loops, innermost first, as (is it a map, variable, schedule). *)
Definition nestable (parents : list (bool * string * option csched)) (sequential : bool) (i : string) (init : expr) (c : cond) (u : expr) : bool :=
  sequential &&
  match parents with
  | (true, _, Some sc) :: _ => negb (Nat.eqb (c_dim sc) 2)
  | _ => false
  end &&
  forallb (fun p => negb (fst (fst p) && existsb (String.eqb (snd (fst p))) (catoms c))) parents &&
  expr_eqb init (EInt 0) && match stride i u with Some 1 => true | _ => false end.
