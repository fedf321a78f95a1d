(** Specification: experiments in which one thing changes. *)
From Coq Require Import Reals List ZArith.
From Verif Require Import Prelude M_Benchmark.
Import ListNotations.
Open Scope R_scope.

(** a random number generator returns numbers in the range asked for: uniform draws from [low, high], integers from [low, high) *)
Definition draws_in_range {G} (uniform : R -> R -> G -> R * G) (integers : Z -> Z -> G -> Z * G) : Prop :=
  (forall low high g, low < high -> low <= fst (uniform low high g) <= high) /\
  (forall low high g, (low < high)%Z -> (low <= fst (integers low high g) < high)%Z).

(** two oscillations that agree except for the parameter named *)
Inductive parameter := HeightAverage | HeightAmplitude | HeightWaveNumber.
Definition same_except (p : parameter) (o o' : oscillation) : Prop :=
  (p <> HeightAverage -> h0 o = h0 o') /\ (p <> HeightAmplitude -> Ah o = Ah o') /\ (p <> HeightWaveNumber -> kh o = kh o') /\
  ph o = ph o' /\ v0 o = v0 o' /\ Av o = Av o' /\ pv o = pv o' /\ kv o = kv o'.
Definition parameter_of (p : parameter) (o : oscillation) : R :=
  match p with HeightAverage => h0 o | HeightAmplitude => Ah o | HeightWaveNumber => kh o end.

(** the experiments of a series: the result of each experiment that succeeds, in order *)
Fixpoint successes {B E} (experiment : B -> option E) (bs : list B) : list E :=
  match bs with [] => [] | b :: bs' => match experiment b with Some r => r :: successes experiment bs' | None => successes experiment bs' end end.
