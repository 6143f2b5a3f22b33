(** Properties C61 and C62, for questions and observations: the answers to logprob and the results of
    condition (src/spe.py) do not depend on the order in which Python iterates over frozensets
    and over sets of strings, on what SymPy returns for a polynomial within its contract, on the
    addresses of the nodes, or on their hashes.  Where the order decides whether there is an
    answer at all is shown by C61_question_refuted in OrderPolyEx.v. *)
From Coq Require Import List Bool String Reals Lia ZArith.
From Verif Require Import Base Num Sets SetSpec Poly Trans TransSpec Logs Spe SpeSpec MemoProofs LogprobProofs LogprobTop SpeEq
  CondTypes CondProofs CondTop PropSpe SpeOps DensSpec DensProofs PropDens MISpec PropMI Prog ProgSpec PropProg CompileSpec PropCompile TotalSpec PropTotal PropCondTotal SessionSpec PropSession.
Import ListNotations.
Local Open Scope R_scope.

Section Properties.
  Context {N : numsys} {S : logsys} {D : distsys N S}.
  Context (dlaw : dist D -> (fval -> R) -> R) (nominal : string -> bool) (envof : string -> tenv (N:=N)).
  Notation spe := (spe D).
  Notation tr := (tr N).
  (** what differs from one process to the next *)
  Context (io io' : iterorder N) (so so' : strorder) (po po' : polyoracle N).
  Context (ident ident' : spe -> nat) (hash hash' : spe -> Z).
  Notation ask fuel := (logprob io po fuel ident).
  Notation ask' fuel := (logprob io' po' fuel ident').
  Notation cond fuel := (condition io so po fuel ident hash).
  Notation cond' fuel := (condition io' so' po' fuel ident' hash').

  (** two answers are the same *)
  Theorem C62_same_answer : forall fuel fuel' s e p p', wf_spe dlaw s -> atoms_ok nominal s -> distinct ident s -> distinct ident' s -> askable dlaw nominal s e ->
    fresh (ask fuel s e) = Ok p -> fresh (ask' fuel' s e) = Ok p' -> toP p = toP p'.
  Proof.
    intros fuel fuel' s e p p' W A Di Di' Q E E'.
    rewrite (C22_logprob io po fuel dlaw ident nominal s e p W A Di Q E).
    now rewrite (C22_logprob io' po' fuel' dlaw ident' nominal s e p' W A Di' Q E').
  Qed.
  (** two results of condition have the same law *)
  Theorem C62_same_law : forall fuel fuel' s e t t', eq_dist dlaw -> wf_spe dlaw s -> typed nominal envof s -> distinct ident s -> distinct ident' s -> conditionable dlaw nominal s e ->
    fresh (cond fuel s e) = Ok t -> fresh (cond' fuel' s e) = Ok t' -> same_law dlaw t t'.
  Proof.
    intros fuel fuel' s e t t' Ed W T Di Di' C E E'.
    destruct (fresh_condition io so po fuel dlaw Ed ident hash nominal envof s e t W T Di C E) as (_ & _ & _ & P & G).
    destruct (fresh_condition io' so' po' fuel' dlaw Ed ident' hash' nominal envof s e t' W T Di' C E') as (_ & _ & _ & _ & G').
    apply (given_unique dlaw s t t' (holds e) (holds e)); auto. reflexivity.
  Qed.
  (** comparisons of variables, and combinations of them, have an answer in both processes *)
  Theorem C61_answers_partial : forall cuts points fuel fuel' s e, (1 <= fuel)%nat -> (1 <= fuel')%nat -> wf_spe dlaw s -> distinct ident s -> distinct ident' s ->
    open_leaves nominal cuts true s -> direct nominal cuts points e -> (forall x, In x (symbols e) -> own s x) -> leaf_form s e ->
    exists p p', fresh (ask fuel s e) = Ok p /\ fresh (ask' fuel' s e) = Ok p' /\ toP p = toP p'.
  Proof.
    intros cuts points fuel fuel' s e F F' W Di Di' O De V L.
    destruct (C54_answers_partial io po fuel dlaw ident hash nominal cuts points F s e W Di O De V L) as (p & E & P).
    destruct (C54_answers_partial io' po' fuel' dlaw ident' hash' nominal cuts points F' s e W Di' O De V L) as (p' & E' & P').
    exists p, p'. repeat split; auto. now rewrite P, P'.
  Qed.
  (** such events of positive probability can be observed in both processes *)
  Theorem C61_conditions_partial : forall cuts s e, eq_dist dlaw -> wf_spe dlaw s -> typed nominal envof s -> distinct ident s -> distinct ident' s ->
    open_leaves nominal cuts true s -> steady cuts (fun _ _ => False) s -> even (holds e) s -> direct nominal cuts (fun _ _ => False) e ->
    (forall x, In x (symbols e) -> own s x) -> leaf_form s e -> 0 < prob dlaw s e ->
    exists rounds, forall fuel fuel', (rounds <= fuel)%nat -> (rounds <= fuel')%nat ->
      exists t t', fresh (cond fuel s e) = Ok t /\ fresh (cond' fuel' s e) = Ok t' /\ same_law dlaw t t'.
  Proof.
    intros cuts s e Ed W T Di Di' O St Ev De V L P.
    destruct (C25_positive_partial io so po dlaw Ed ident hash nominal envof cuts s e W T Di O St Ev De V L P) as (n & K).
    destruct (C25_positive_partial io' so' po' dlaw Ed ident' hash' nominal envof cuts s e W T Di' O St Ev De V L P) as (n' & K').
    exists (n + n')%nat. intros fuel fuel' F F'.
    destruct (K fuel ltac:(lia)) as (t & E & _ & _ & G). destruct (K' fuel' ltac:(lia)) as (t' & E' & _ & _ & G').
    exists t, t'. split; auto. split; auto.
    apply (given_unique dlaw s t t' (holds e) (holds e)); [reflexivity| |exact G|exact G'].
    exact (prob_den dlaw ident hash s e W (proj1 De) V P).
  Qed.
  (** two values of mutual_information are the same *)
  Theorem C62_same_information : forall fuel fuel' s a b r r', wf_spe dlaw s -> atoms_ok nominal s -> distinct ident s -> distinct ident' s ->
    decided dlaw nominal s a -> decided dlaw nominal s b ->
    mutual_information io po fuel ident s a b = Ok r -> mutual_information io' po' fuel' ident' s a b = Ok r' -> r = r'.
  Proof.
    intros fuel fuel' s a b r r' W A Di Di' Da Db E E'.
    rewrite (C38_value io po fuel dlaw ident nominal s a b r W A Di Da Db E).
    now rewrite (C38_value io' po' fuel' dlaw ident' nominal s a b r' W A Di' Da Db E').
  Qed.
  (** two results of a program have the same variables and the same law, with and without
      simplification of the expressions *)
  Section Programs.
    Context (ids ids' : spe -> spe -> nat) (raw raw' : bool) (Ed : eq_dist dlaw).
    Context (Hid : forall s, distinct (ids s) s) (Hid' : forall s, distinct (ids' s) s).
    Context (Hh : raw = true \/ forall a b, is_leaf a = true -> is_leaf b = true -> hash a = hash b -> speqb (D:=D) a b = true).
    Context (Hh' : raw' = true \/ forall a b, is_leaf a = true -> is_leaf b = true -> hash' a = hash' b -> speqb (D:=D) a b = true).
    Notation run fuel := (interpret io so po fuel hash ids raw).
    Notation run' fuel := (interpret io' so' po' fuel hash' ids' raw').
    Theorem C62_same_program : forall fuel fuel' c W s s', fits dlaw nominal c (fun _ => False) start W ->
      run fuel c None = Ok (Some s) -> run' fuel' c None = Ok (Some s') -> (forall x, vars s x <-> vars s' x) /\ same_law dlaw s s'.
    Proof.
      intros fuel fuel' c W s s' F E E'.
      destruct (C35_program io so po fuel dlaw Ed hash ids raw nominal Hid Hh c W s F E) as (_ & V & M).
      destruct (C35_program io' so' po' fuel' dlaw Ed hash' ids' raw' nominal Hid' Hh' c W s' F E') as (_ & V' & M').
      split; [intros x; rewrite V, V'; reflexivity|]. intros f Sf w. now rewrite M, M'.
    Qed.
    (** programs of the class of C55 run in both processes, and questions about the variables
        they sample have the same answers *)
    Theorem C61_programs_partial : forall derived cuts c W m', compiles dlaw nominal derived cuts c (fun _ => False) start None W m' -> two (base derived W) ->
      exists rounds, forall fuel fuel', (rounds <= fuel)%nat -> (rounds <= fuel')%nat -> exists s s', run fuel c None = Ok (Some s) /\ run' fuel' c None = Ok (Some s') /\
        forall cuts' points e n n', (1 <= n)%nat -> (1 <= n')%nat -> direct nominal cuts' points e -> (forall x, In x (symbols e) -> base derived W x) ->
        exists p p', fresh (logprob io po n (ids s) s e) = Ok p /\ fresh (logprob io' po' n' (ids' s') s' e) = Ok p' /\ toP p = toP p'.
    Proof.
      intros derived cuts c W m' C T.
      destruct (C55_answers_partial io so po dlaw Ed hash ids raw nominal derived Hid Hh cuts c W m' C T) as (k & K).
      destruct (C55_answers_partial io' so' po' dlaw Ed hash' ids' raw' nominal derived Hid' Hh' cuts c W m' C T) as (k' & K').
      exists (k + k')%nat. intros fuel fuel' F F'.
      destruct (K fuel ltac:(lia)) as (s & E & A). destruct (K' fuel' ltac:(lia)) as (s' & E' & A'). exists s, s'. split; auto. split; auto.
      intros cuts' points e n n' Hn Hn' De V. destruct (A cuts' points e n Hn De V) as (p & Ep & P). destruct (A' cuts' points e n' Hn' De V) as (p' & Ep' & P').
      exists p, p'. split; auto. split; auto. rewrite (P w0), (P' w0). reflexivity.
    Qed.
  End Programs.
End Properties.
