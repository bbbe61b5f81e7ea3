(** Model of the OpenMP constructs used by Bembel.  Threads interleave arbitrarily; one step is one
    visit of a [single] construct, or the critical section.  The order in which a thread's own private
    memory is written inside a step is invisible to the other threads, so a step may be atomic.
    Not modelled: the memory model (data races are excluded by the disjointness theorems). *)
From Coq Require Import List Arith.
From Verif Require Import ModelBase.
Import ListNotations.
Local Open Scope nat_scope.

(** ** #pragma omp parallel with a loop of #pragma omp single nowait and a final #pragma omp critical
    (DiscretePotential.hpp 76-104, H2DenseProduct.hpp 81-152) *)
(** claimed: the loop iterations whose single construct has been entered by some thread;
    threads: for every thread its position in the loop (n: before the critical section, n+1: done) and
    its private accumulator; shared: the shared result *)
Record team (A V : Type) := mkTeam { claimed : list nat; threads : list (nat * A); shared : V }.
Arguments mkTeam {A V}. Arguments claimed {A V}. Arguments threads {A V}. Arguments shared {A V}.

(** n iterations with body [body i]; [commit] is the critical section *)
Inductive team_step {A V} (n : nat) (body : nat -> A -> A) (commit : A -> V -> V) : team A V -> team A V -> Prop :=
| step_take : forall s k i a th', get (threads s) k = Some (i, a) -> i < n -> ~ In i (claimed s) ->
    set (threads s) k (S i, body i a) = Some th' ->
    team_step n body commit s (mkTeam (i :: claimed s) th' (shared s))
| step_skip : forall s k i a th', get (threads s) k = Some (i, a) -> i < n -> In i (claimed s) ->
    set (threads s) k (S i, a) = Some th' ->
    team_step n body commit s (mkTeam (claimed s) th' (shared s))
| step_critical : forall s k a th', get (threads s) k = Some (n, a) ->
    set (threads s) k (S n, a) = Some th' ->
    team_step n body commit s (mkTeam (claimed s) th' (commit a (shared s))).

Inductive team_steps {A V} (n : nat) (body : nat -> A -> A) (commit : A -> V -> V) : team A V -> team A V -> Prop :=
| steps_refl : forall s, team_steps n body commit s s
| steps_cons : forall s s' s'', team_step n body commit s s' -> team_steps n body commit s' s'' ->
    team_steps n body commit s s''.

(** the region ends when every thread has left the critical section (implicit barrier) *)
Definition team_done {A V} (n : nat) (s : team A V) : Prop := forall k i a, get (threads s) k = Some (i, a) -> i = S n.

(** a parallel region executed by [nthreads] threads, all starting with accumulator [a0] *)
Definition parallel_region {A V} (nthreads n : nat) (body : nat -> A -> A) (commit : A -> V -> V) (a0 : A) (v0 v1 : V) : Prop :=
  exists s, team_steps n body commit (mkTeam [] (repeat (0, a0) nthreads) v0) s /\ team_done n s /\ shared s = v1.

(** ** tasks (DiscreteOperator.hpp 50-79, H2Matrix.hpp 144-240): every task is a sequence of writes to the
    shared memory; any interleaving of the tasks may happen *)
Inductive interleave {W} : list (list W) -> list W -> Prop :=
| inter_nil : forall ts, (forall t, In t ts -> t = []) -> interleave ts []
| inter_step : forall ts1 w t ts2 ws, interleave (ts1 ++ t :: ts2) ws -> interleave (ts1 ++ (w :: t) :: ts2) (w :: ws).
