(** multiprocessing.Pool.map and starmap with an arbitrary interleaving of the workers, as used in
    solver_algorithms.py l.1373-1375 and parallel.py l.104-106.

    The inputs are cut into chunks of consecutive inputs (Pool._get_tasks); every chunk is worked off by one
    worker.  The chunks complete in any order, given by [sched]; on completion of chunk i its results are
    written to the positions of the chunk (MapResult._set).  The first chunk reported as failed (in the order
    of completion) determines the exception raised by map.  Workers are processes: they work on pickled copies
    of the inputs and do not share state, so the result of a task is a function of its input.  Not modelled:
    pickling errors, crashing processes. *)
Require Import List Arith.
From Verif Require Import LibBase M_OpHeap.
Import ListNotations.
Set Implicit Arguments.

Section Pool.
Variables A B : Type.
Variable f : A -> res B.

(** Pool._get_tasks: tuple(itertools.islice(it, size)) until it is empty *)
Fixpoint chunks_fuel (fuel c : nat) (xs : list A) : list (list A) :=
  match fuel, xs with
  | 0, _ | _, [] => []
  | S fuel, _ => firstn c xs :: chunks_fuel fuel c (skipn c xs)
  end.
Definition chunks (c : nat) (xs : list A) : list (list A) := chunks_fuel (length xs) c xs.

(** MapResult._set(i, (success, result)) *)
Definition report (chs : list (list A)) (acc : list (option (list B)) * option exn) (i : nat) : list (option (list B)) * option exn :=
  match snd acc, mapM f (nth i chs []) with
  | None, Ok ys => (lset (fst acc) i (Some ys), None)
  | None, Err e => (fst acc, Some e)
  | Some _, _ => acc
  end.
(** Pool.map(f, xs, chunksize=c); chunk sched[0] completes first *)
Definition pool_map (c : nat) (sched : list nat) (xs : list A) : res (list B) :=
  let chs := chunks c xs in
  match fold_left (report chs) sched (repeat None (length chs), None) with
  | (_, Some e) => Err e
  | (rs, None) => Ok (concat (map (fun r => match r with Some ys => ys | None => [] end) rs))
  end.
End Pool.
