(** * Model of kwant/graph/dijkstra.pyx: dijkstra_directed. *)
From Coq Require Import List Bool Arith.
Import ListNotations.
Set Implicit Arguments.

(** dijkstra.pyx:159-162 FibonacciState *)
Inductive status := SCANNED | NOT_IN_HEAP | IN_HEAP.

Section Model.
(** Weights: an ordered commutative monoid (see DijkstraSpec); None is inf *)
Variable W : Type.
Variable w0 : W.
Variable wadd : W -> W -> W.
Variable wltb : W -> W -> bool.
(** A graph in CSR format: for each row, the columns and weights
    (graph.indices, graph.data between graph.indptr[i] and graph.indptr[i + 1]) *)
Definition csr := list (list (nat * option W)).
Definition row (g : csr) (i : nat) : list (nat * option W) := nth i g [].

(** The fields of the nodes, the array pred (None is -1), the set of nodes in the
    heap and (for the oracle) the nodes in the order in which they were removed.
    The Fibonacci heap (dijkstra.pyx:168-345) is represented by the set of its
    nodes; remove_min is an oracle that returns some node with the smallest
    value. *)
Record state := mkState {
  stat : nat -> status;
  val : nat -> W;
  pred : nat -> option nat;
  heap : list nat;
  trace : list nat }.
Variable pick : list nat -> (nat -> W) -> list nat -> nat.
Definition upd {A} (f : nat -> A) (i : nat) (x : A) : nat -> A := fun j => if j =? i then x else f j.
(** dijkstra.pyx:98-109 *)
Definition initial (source : nat) : state :=
  mkState (fun _ => NOT_IN_HEAP) (fun _ => w0) (fun _ => None) [source] [].
(** dijkstra.pyx:112-113 remove_min, SCANNED *)
Definition remove_min (s : state) : nat * state :=
  let v := pick (trace s) (val s) (heap s) in
  (v, mkState (upd (stat s) v SCANNED) (val s) (pred s) (remove Nat.eq_dec v (heap s)) (v :: trace s)).
(** dijkstra.pyx:121-137 one link *)
Definition scan (v : nat) (s : state) (e : nat * option W) : state :=
  match snd e with
  | None => s
  | Some w =>
    let j := fst e in
    match stat s j with
    | SCANNED => s
    | NOT_IN_HEAP => mkState (upd (stat s) j IN_HEAP) (upd (val s) j (wadd (val s v) w)) (upd (pred s) j (Some v)) (j :: heap s) (trace s)
    | IN_HEAP => if wltb (wadd (val s v) w) (val s j)
                 then mkState (stat s) (upd (val s) j (wadd (val s v) w)) (upd (pred s) j (Some v)) (heap s) (trace s)
                 else s
    end
  end.
(** dijkstra.pyx:111-137 the loop: Some (true, s) if the target was found, Some
    (false, s) if the heap is empty, None if out of fuel *)
Fixpoint run (fuel : nat) (g : csr) (target : nat) (s : state) : option (bool * state) :=
  match fuel with
  | 0 => None
  | S fuel =>
    match heap s with
    | [] => Some (false, s)
    | _ :: _ =>
      let '(v, s) := remove_min s in
      if v =? target then Some (true, s)
      else run fuel g target (fold_left (scan v) (row g v) s)
    end
  end.
(** dijkstra.pyx:148-155 _calculate_path; a path from j_target to j_source *)
Fixpoint calculate_path (fuel : nat) (pred : nat -> option nat) (source node : nat) : option (list nat) :=
  if node =? source then Some [source]
  else match fuel with
       | 0 => None
       | S fuel => match pred node with
                   | None => None
                   | Some p => option_map (cons node) (calculate_path fuel pred source p)
                   end
       end.

Inductive result := NoFuel | Unreachable | Found (path : list nat) (len : W).
(** dijkstra_directed(graph, sources=[source], targets=[target]).  In the
    Unreachable case, no path is appended to paths. *)
Definition dijkstra (g : csr) (source target : nat) : result :=
  match run (S (length g)) g target (initial source) with
  | None => NoFuel
  | Some (false, _) => Unreachable
  | Some (true, s) => match calculate_path (length g) (pred s) source target with
                      | Some p => Found p (val s target)
                      | None => NoFuel
                      end
  end.
(** dijkstra_directed(..., return_paths=False): the entry of path_lengths; the
    array is initialized with zeros *)
Definition path_length (g : csr) (source target : nat) : option W :=
  match run (S (length g)) g target (initial source) with
  | None => None
  | Some (false, _) => Some w0
  | Some (true, s) => Some (val s target)
  end.
(** dijkstra_directed(graph, sources=[root], targets=[graph.shape[0] + 1],
    return_paths=False, return_predecessors=True) *)
Definition predecessors (g : csr) (root : nat) : option (nat -> option nat) :=
  match run (S (length g)) g (length g + 1) (initial root) with
  | None => None
  | Some (_, s) => Some (pred s)
  end.
End Model.
