(** Fuelled execution of Python [while] loops: [run d step s] performs up to
    2^d iterations of [step]; [Running] at the end means out of fuel. *)
From Verif.Base Require Export Prelude.

Inductive outcome (S A : Type) :=
| Running (s : S)
| Done (a : A)
| Fail (e : exn).
Arguments Running {S A}. Arguments Done {S A}. Arguments Fail {S A}.

Fixpoint run {S A} (d : nat) (step : S -> outcome S A) (s : S) : outcome S A :=
  match d with
  | O => step s
  | S d' => match run d' step s with
            | Running s' => run d' step s'
            | o => o
            end
  end.

Definition to_res {S A} (o : outcome S A) : res A :=
  match o with Done a => Ok a | Fail e => Err e | Running _ => Err OutOfFuel end.
