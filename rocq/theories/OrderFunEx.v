(** A case for PropOrderFun.v: the program prog_f of CompileFunEx.v in two processes. *)
From Coq Require Import List Bool String Reals Lra Lia ZArith QArith Qreals Permutation.
From Verif Require Import Base Num Sets SetSpec Poly Trans TransSpec Logs Spe SpeSpec MemoProofs LogprobProofs LogprobTop SpeEq CondTypes CondProofs CondTop PropSpe SetBuilt Instances SpeEx ConsEx Same Prog ProgSpec ProgEx CompileSpec CompileEx LinEx AskEx FunSpec FunEx PropFun AskSpec SessionFunEx CompileFunSpec CompileFunEx OrderEx OrderAskEx PropOrderFun TotalSpec TotalEx CondTotalEx.
Import ListNotations.
Local Open Scope R_scope.
Local Open Scope string_scope.

Example C61_function_programs_case : admits pl elaw exnom dZ any prog_f (fun _ => False) start None V2 None /\ two (base dZ V2) /\ posed pl exnom any none tgt7 /\ (forall x, In x (symbols tgt7) -> base dZ V2 x) /\
  sure (meaning elaw prog_f start) (regular true tgt7) /\
  exists rounds, forall fuel fuel', (rounds <= fuel)%nat -> (rounds <= fuel')%nat -> exists s s',
    interpret ioQ so_id pl fuel exhash ids_of true prog_f None = Ok (Some s) /\ interpret io_swap so_back pl fuel' hash_down ids_up true prog_f None = Ok (Some s') /\
    exists p p', fresh (logprob ioQ pl 9 (ids_of s) s tgt7) = Ok p /\ fresh (logprob io_swap pl 5 (ids_up s') s' tgt7) = Ok p' /\ @toP LQ p = @toP LQ p'.
Proof.
  destruct C55_functions_case as (C & T & P & V & Sr & _). repeat (split; [assumption|]).
  destruct (C61_function_programs_partial elaw exnom dZ any ioQ io_swap so_id so_back pl pl exhash hash_down ids_of ids_up true true elaw_eq ids_distinct ids_up_distinct (or_introl eq_refl) (or_introl eq_refl) prog_f V2 None None C C T) as (k & K).
  exists k. intros fuel fuel' F F'. destruct (K fuel fuel' F F') as (s & s' & E & E' & A). exists s, s'. split; auto. split; auto. apply A; auto; lia.
Qed.

(** the expression p1 and the event cev of FunEx.v *)
Example C61_function_conditions_case : posed pl exnom any any cev /\ prepared pl exnom any any (fun x => In x (symbols cev)) true p1 /\
  (exists p p', fresh (logprob ioQ pl 9 (ids_of p1) p1 cev) = Ok p /\ fresh (logprob io_swap pl 5 (ids_up p1) p1 cev) = Ok p' /\ @toP LQ p = @toP LQ p') /\
  exists t t', fresh (condition ioQ so_id pl 9 (ids_of p1) exhash p1 cev) = Ok t /\ fresh (condition io_swap so_back pl 5 (ids_up p1) hash_down p1 cev) = Ok t' /\ same_law elaw t t'.
Proof.
  destruct C58_condition_case as (W & T & _ & Il & O & St & P & Cj & Th & V & Sr & Pos). split; auto. split; [exact p1_fun_prepared|]. split.
  - apply (C61_function_answers_partial elaw exnom any ioQ io_swap pl pl exhash hash_down ids_of ids_up ids_distinct ids_up_distinct any); auto; try lia; try exact p1_fun_prepared. cbn; intuition.
  - apply (C61_function_conditions_partial elaw exnom any ioQ io_swap so_id so_back pl pl exhash hash_down ids_of ids_up elaw_eq ids_distinct ids_up_distinct any exenvof); auto; lia.
Qed.

Definition all_order_fun_properties := (@C61_function_answers_partial, @C61_function_conditions_partial, @C61_function_programs_partial).
Print Assumptions all_order_fun_properties.
