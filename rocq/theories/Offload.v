(** Offloading: device buffers, transfers, kernels, and the passes that place and
    remove transfers.

    Modelled: opt/src/targets/cuda/cuda_data_offloading_node.cpp:139-173 (code of a
    transfer: allocation, copy, release), opt/src/targets/offloading/
    data_offloading_node.cpp:82-145 (redundant_with, equal_with, remove_free),
    opt/src/transformations/offloading/offload_transform.cpp:86-170 and
    cuda_transform.cpp (what is inserted around an offloaded map),
    opt/src/passes/offloading/data_transfer_minimization_pass.cpp:42-188.
    A kernel is executed as its sequential loops (C66: the same memory as every
    interleaving of its threads).
    Simplified: sizes are numbers of elements (not bytes), device buffers have one
    dimension, one device; reading device memory that was never written, accesses
    outside a buffer or through a released pointer, and two names of one buffer used
    by one kernel are undefined (no execution). *)
From Verif Require Import Sym SymFacts IR IRFacts Trace ParProofs.

(** A device buffer: number of elements, and their values (None: never written). *)
Definition buffer : Type := Z * (Z -> option Z).
(** Host memory, the device pointers (containers with device storage), the device's
    heap, the next unused address. *)
Record machine := Mc { host : store; ptr : string -> option nat; heap : nat -> option buffer; fresh : nat }.
(** data_offloading_node.h: DataTransferDirection, BufferLifecycle *)
Inductive direction := D2H | H2D | NoDir.
Inductive lifecycle := Alloc | Free | Keep.
Record transfer := Xf { x_dir : direction; x_life : lifecycle; x_size : expr; x_host : string; x_dev : string }.
(** A child of the sequence: a transfer, host code, a kernel, or the assignment of a
    device pointer (reference memlet). *)
Inductive command := Xfer (x : transfer) | HostC (n : node) | Kernel (n : node) | MapPtr (src dst : string).

Definition setp {A} (f : string -> A) (x : string) (v : A) : string -> A := fun y => if String.eqb x y then v else f y.
Definition seth {A} (f : nat -> A) (q : nat) (v : A) : nat -> A := fun r => if Nat.eqb q r then v else f r.
Definition inr (k n : Z) : bool := (0 <=? k) && (k <? n).
(** the device pointer [x] refers to the live buffer [b] at address [q] *)
Definition live (s : machine) (x : string) (q : nat) (b : buffer) : Prop := ptr s x = Some q /\ heap s q = Some b.

Section Exec.
  Variables (I : nat -> list Z -> option Z) (dev : string -> bool).
  (** cudaMalloc(&d, n) *)
  Definition alloc (d : string) (n : Z) (s : machine) : machine :=
    Mc (host s) (setp (ptr s) d (Some (fresh s))) (seth (heap s) (fresh s) (Some (n, fun _ => None))) (S (fresh s)).
  (** cudaMemcpy(d, a, n, HostToDevice) *)
  Definition to_device (a : string) (q : nat) (b : buffer) (n : Z) (s : machine) : machine :=
    Mc (host s) (ptr s) (seth (heap s) q (Some (fst b, fun k => if inr k n then Some (host s a [k]) else snd b k))) (fresh s).
  (** cudaMemcpy(a, d, n, DeviceToHost) *)
  Definition to_host (a : string) (b : buffer) (n : Z) (s : machine) : machine :=
    Mc (fun x j => match j with [k] => if String.eqb a x && inr k n then match snd b k with Some v => v | None => host s x j end else host s x j | _ => host s x j end)
       (ptr s) (heap s) (fresh s).
  (** cudaFree(d) *)
  Definition release (q : nat) (s : machine) : machine := Mc (host s) (ptr s) (seth (heap s) q None) (fresh s).

  Inductive allocs (x : transfer) (n : Z) : machine -> machine -> Prop :=
  | A_yes s : x_life x = Alloc -> 0 <= n -> allocs x n s (alloc (x_dev x) n s)
  | A_no s : x_life x <> Alloc -> allocs x n s s.
  Inductive copies (x : transfer) (n : Z) : machine -> machine -> Prop :=
  | C_in s q b : x_dir x = H2D -> live s (x_dev x) q b -> n <= fst b -> copies x n s (to_device (x_host x) q b n s)
  | C_out s q b : x_dir x = D2H -> live s (x_dev x) q b -> n <= fst b -> (forall k, 0 <= k < n -> snd b k <> None) -> copies x n s (to_host (x_host x) b n s)
  | C_no s : x_dir x = NoDir -> copies x n s s.
  Inductive frees (x : transfer) : machine -> machine -> Prop :=
  | F_yes s q b : x_life x = Free -> live s (x_dev x) q b -> frees x s (release q s)
  | F_no s : x_life x <> Free -> frees x s s.

  (** what a kernel sees *)
  Definition view (s : machine) : store := fun x j =>
    if dev x then match ptr s x, j with
      | Some q, [k] => match heap s q with Some b => match snd b k with Some v => v | None => 0 end | None => 0 end
      | _, _ => 0 end
    else host s x j.
  Definition writes_b (T : trace) (x : string) (k : Z) : bool :=
    existsb (fun e => match e with Ev true y _ [j] => String.eqb x y && Z.eqb k j | _ => false end) T.
  (** the device memory after a kernel whose last view is [v] *)
  Definition device_after (l : list string) (v : store) (T : trace) (s : machine) : machine :=
    Mc (host s) (ptr s)
       (fun q => match heap s q with
         | Some b => Some (fst b, fun k =>
             match find (fun x => dev x && match ptr s x with Some r => Nat.eqb r q | None => false end && writes_b T x k) l with
             | Some x => Some (v x [k])
             | None => snd b k end)
         | None => None end) (fresh s).
  Inductive does : command -> machine -> machine -> Prop :=
  | D_xfer x n s s1 s2 s3 : eval (env_of (host s)) (x_size x) = Some n -> allocs x n s s1 -> copies x n s1 s2 -> frees x s2 s3 -> does (Xfer x) s s3
  | D_host n s h : (forall x, In x (nnames n) -> dev x = false) -> run I n (host s) ONorm h -> does (HostC n) s (Mc h (ptr s) (heap s) (fresh s))
  | D_kernel n s v T : runT I n (view s) ONorm v T ->
      (forall x j, dev x = true -> touched T x j -> exists k q b, j = [k] /\ live s x q b /\ 0 <= k < fst b) ->
      (forall x k q b, dev x = true -> exposed T x [k] -> live s x q b -> snd b k <> None) ->
      (forall x y i j q b, touched T x i -> touched T y j -> dev x = true -> dev y = true -> live s x q b -> live s y q b -> x = y) ->
      does (Kernel n) s (device_after (nnames n) v T s)
  | D_map a b s : does (MapPtr a b) s (Mc (host s) (setp (ptr s) b (ptr s a)) (heap s) (fresh s)).
  Inductive doall : list command -> machine -> machine -> Prop :=
  | DA_nil s : doall [] s s
  | DA_cons c l s s1 s2 : does c s s1 -> doall l s1 s2 -> doall (c :: l) s s2.
End Exec.

(* ----------------------------------------------------------------- *)
(** OffloadTransform::apply, 86-139: [args] are the pointer arguments with their
    sizes; the device copy of [a] is [pre ++ a]; outputs are the arguments the map
    writes. The blocks after the map are each inserted directly after it. *)
Definition copy_in (pre : string) (p : string * expr) : command := Xfer (Xf H2D Alloc (snd p) (fst p) (pre ++ fst p)).
Definition copy_out (pre : string) (n : node) (p : string * expr) : command :=
  if existsb (String.eqb (fst p)) (nwrites n) then Xfer (Xf D2H Free (snd p) (fst p) (pre ++ fst p))
  else Xfer (Xf NoDir Free (snd p) (fst p) (pre ++ fst p)).
Definition on_device (pre : string) (args : list (string * expr)) (n : node) : node :=
  fold_left (fun m p => repl_node (fst p) (ESym (pre ++ fst p)) m) args n.
Definition offload (pre : string) (args : list (string * expr)) (n : node) : list command :=
  (map (copy_in pre) args ++ [Kernel (on_device pre args n)] ++ rev (map (copy_out pre n) args))%list.

(* ----------------------------------------------------------------- *)
(** DataOffloadingNode::redundant_with, 82-100: opposite directions and lifecycles,
    equal sizes *)
Definition opposite (d1 d2 : direction) : bool := match d1, d2 with D2H, H2D | H2D, D2H | NoDir, NoDir => true | _, _ => false end.
Definition opposite_life (l1 l2 : lifecycle) : bool := match l1, l2 with Alloc, Free | Free, Alloc | Keep, Keep => true | _, _ => false end.
Definition redundant_with (x y : transfer) : bool := opposite (x_dir x) (x_dir y) && opposite_life (x_life x) (x_life y) && expr_eqb (x_size x) (x_size y).
(** uses of host containers by a command *)
Definition cmd_reads (c : command) : list string :=
  match c with
  | Xfer x => (match x_dir x with H2D => [x_host x] | _ => [] end) ++ atoms (x_size x)
  | HostC n => nreads n
  | Kernel n => nreads n
  | MapPtr _ _ => [] end.
Definition cmd_writes (c : command) : list string :=
  match c with
  | Xfer x => match x_dir x with D2H => [x_host x] | _ => [] end
  | HostC n => nwrites n
  | Kernel n => []
  | MapPtr _ _ => [] end.
(** DataTransferMinimization::accept, 42-188, one step: the copy-out [o], the
    commands [mid] up to the copy-in [i], the commands [post] after it. The host
    container must not be written in between (118-128); the copy-out is removed
    unless the container is read later (137-143), and then keeps its copy but not its
    release (161-166); the device pointer is passed on (169-183). *)
Definition minimize (o : transfer) (mid : list command) (i : transfer) (post : list command) : option (list command) :=
  if match x_dir o with D2H => true | _ => false end && match x_dir i with H2D => true | _ => false end && redundant_with o i &&
     String.eqb (x_host o) (x_host i) && negb (existsb (fun c => existsb (String.eqb (x_host o)) (cmd_writes c)) mid)
  then
    let read_after := existsb (fun c => existsb (String.eqb (x_host o)) (cmd_reads c)) (mid ++ post) in
    Some ((if read_after then [Xfer (Xf D2H Keep (x_size o) (x_host o) (x_dev o))] else []) ++ mid ++
          (if String.eqb (x_dev o) (x_dev i) then [] else [MapPtr (x_dev o) (x_dev i)]) ++ post)
  else None.
