(** * The plain run of slugs on the content of an input file

    main.cpp:250-263 without options: init, computeVariableInformation, execute. *)

From Coq Require Import String.
From Verif Require Import VarTypes Synth Parser.

(** GR1Context::execute, synthesisContextBasics.cpp:109-116, prints the verdict. *)
Definition executeFile (ord : nat -> bool) (content : string) : pres verdict :=
  pbind (initContext ord content) (fun c => POk (checkRealizability c)).
