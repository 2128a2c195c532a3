(** * Vocabulary of C84: programs that give the same results whatever the schedule of the processes. *)

From Coq Require Import List Arith Bool.
From Verif Require Import Algebra BlasModel HMatModel DistModel ProcModel.
Import ListNotations.

(** In every execution environment ([environment]: a scheduler and an MPI library that lets a process out of a collective call as soon as it has what it needs, or later, but not after all
    the processes have arrived and nothing else can be done), in every state [g] reached by a run of [k] steps:
    no process meets undefined behaviour or an MPI error and the calls match; and either the run can go on and has less than [N] steps, or all the processes have returned,
    process [r] with the result [res r], after exactly [N] steps. *)
Definition reliable (K : Coef) (P : nat) {A : Type} (ps : nat -> prog K A) (res : nat -> A) : Prop :=
  exists N, forall next, environment K P next -> forall k g, run K next k (start K ps) g ->
    ~ faulty K P g /\ (k < N /\ (exists g', next g g') \/ k = N /\ finished K P g res /\ ~ exists g', next g g').
