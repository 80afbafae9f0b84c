(** Vocabulary for the statements on random numbers. *)
From Coq Require Import NArith List.
From Verif Require Import Base RandModel.
Import ListNotations.

(** a schedule is the sequence of thread indices making calls to random(NULL), in the order in which the calls happen;
    the log records (thread, result) *)
Fixpoint run (maxThreads : nat) (sched : list nat) (mem : list N) : res (list (nat * N) * list N) :=
  match sched with
  | [] => Ok ([], mem)
  | t :: rest =>
      o <- draw maxThreads t mem ;;
      r <- run maxThreads rest (snd o) ;;
      Ok ((t, fst o) :: fst r, snd r)
  end.
Definition outputs_of (t : nat) (log : list (nat * N)) : list N := map snd (filter (fun e => Nat.eqb (fst e) t) log).
(** the sequence of n numbers of a generator started in the state s *)
Definition stream (s : N * N) (n : nat) : list N := map (fun k => xoro_out (N.iter (N.of_nat k) xoro_step s)) (seq 0 n).

(** a choice sequence for a shuffle of n elements: the i-th choice is any index in 0..i *)
Definition choices (n : nat) (js : list nat) : Prop := length js = n /\ forall i j, nth_error js i = Some j -> (j <= i)%nat.
