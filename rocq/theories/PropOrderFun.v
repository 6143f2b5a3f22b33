(** Property C61 for programs with Conditions on functions of variables. *)
From Coq Require Import List Bool String Reals Lra Lia ZArith PeanoNat.
From Verif Require Import Base Num Sets SetSpec Poly Trans TransSpec Dnf DnfSpec Logs Spe SpeSpec MemoProofs LogprobProofs LogprobTop SpeEq CondTypes CondProofs CondTop PropSpe SpeOps Prog ProgSpec ProgProofs TotalSpec PropCondTotal CompileSpec SolveSpec AskSpec FunSpec FunTotal PropFun CompileFunSpec PropCompileFun SpeFacts SessionSpec PropSession.
Import ListNotations.
Local Open Scope R_scope.

Section Properties.
  Context {N : numsys} {S : logsys} {D : distsys N S} (dlaw : dist D -> (fval -> R) -> R) (nominal derived : string -> bool) (cuts : string -> R -> Prop).
  (** two processes: iteration orders, addresses, hashes, answers of the computer algebra *)
  Context (io io' : iterorder N) (so so' : strorder) (po po' : polyoracle N) (hash hash' : spe D -> Z) (ids ids' : spe D -> spe D -> nat) (raw raw' : bool) (Ed : eq_dist dlaw).
  Notation none := (fun (_ : string) (_ : R) => False).
  Context (Hid : forall s, distinct (ids s) s) (Hid' : forall s, distinct (ids' s) s).
  Context (Hh : raw = true \/ forall a b, is_leaf a = true -> is_leaf b = true -> hash a = hash b -> speqb (D:=D) a b = true).
  Context (Hh' : raw' = true \/ forall a b, is_leaf a = true -> is_leaf b = true -> hash' a = hash' b -> speqb (D:=D) a b = true).
  Notation run fuel := (interpret io so po fuel hash ids raw).
  Notation run' fuel := (interpret io' so' po' fuel hash' ids' raw').
  (** Questions that compare functions of variables are answered alike. *)
  Theorem C61_function_answers_partial : forall points k k' s e, (2 <= k)%nat -> (2 <= k')%nat -> wf_spe dlaw s -> is_leaf s = false ->
    prepared po nominal cuts points (fun x => In x (symbols e)) true s -> prepared po' nominal cuts points (fun x => In x (symbols e)) true s ->
    posed po nominal cuts points e -> posed po' nominal cuts points e -> (forall x, In x (symbols e) -> vars s x) -> surely dlaw s (regular true e) ->
    exists p p', fresh (logprob io po k (ids s) s e) = Ok p /\ fresh (logprob io' po' k' (ids' s) s e) = Ok p' /\ toP p = toP p'.
  Proof.
    intros points k k' s e Hk Hk' W Il Pr Pr' Pe Pe' V Sr.
    destruct (C58_answers_partial io po k dlaw (ids s) hash nominal cuts points Hk s e W (Hid s) Il Pr Pe V) as (p & Ep & P).
    destruct (C58_answers_partial io' po' k' dlaw (ids' s) hash' nominal cuts points Hk' s e W (Hid' s) Il Pr' Pe' V) as (p' & Ep' & P').
    exists p, p'. split; auto. split; auto. rewrite P, P' by auto. reflexivity.
  Qed.
  (** Conjunctions of comparisons of one-to-one functions can be observed in both processes, with
      the same distribution afterwards. *)
  Theorem C61_function_conditions_partial : forall points envof k k' s e, (2 <= k)%nat -> (2 <= k')%nat -> wf_spe dlaw s -> typed nominal envof s -> is_leaf s = false -> open_leaves nominal cuts false s -> steady cuts points s ->
    posed po nominal cuts points e -> posed po' nominal cuts points e -> conjunctive e -> Forall thin (lits e) -> (forall x, In x (symbols e) -> own s x) -> surely dlaw s (regular true e) -> 0 < prob dlaw s e ->
    exists t t', fresh (condition io so po k (ids s) hash s e) = Ok t /\ fresh (condition io' so' po' k' (ids' s) hash' s e) = Ok t' /\ same_law dlaw t t'.
  Proof.
    intros points envof k k' s e Hk Hk' W T Il O St Pe Pe' Cj Th V Sr P.
    destruct (C58_condition_partial io so po k dlaw Ed (ids s) hash nominal cuts points envof Hk s e W T (Hid s) Il O St Pe Cj Th V Sr P) as (t & Et & _ & _ & G).
    destruct (C58_condition_partial io' so' po' k' dlaw Ed (ids' s) hash' nominal cuts points envof Hk' s e W T (Hid' s) Il O St Pe' Cj Th V Sr P) as (t' & Et' & _ & _ & G').
    exists t, t'. split; auto. split; auto. apply (given_unique dlaw s t t' (holds e) (holds e)); [reflexivity| |exact G|exact G'].
    exact (prob_den dlaw (ids s) hash s e W (proj1 Pe) V P).
  Qed.
  (** The programs run in both processes, and questions that compare sampled variables and functions
      of them have the same answers. *)
  Theorem C61_function_programs_partial : forall c W m n, admits po dlaw nominal derived cuts c (fun _ => False) start None W m -> admits po' dlaw nominal derived cuts c (fun _ => False) start None W n -> two (base derived W) ->
    exists rounds, forall fuel fuel', (rounds <= fuel)%nat -> (rounds <= fuel')%nat -> exists s s', run fuel c None = Ok (Some s) /\ run' fuel' c None = Ok (Some s') /\
      forall q k k', (2 <= k)%nat -> (2 <= k')%nat -> posed po nominal cuts none q -> posed po' nominal cuts none q -> (forall x, In x (symbols q) -> base derived W x) -> sure (meaning dlaw c start) (regular true q) ->
      exists p p', fresh (logprob io po k (ids s) s q) = Ok p /\ fresh (logprob io' po' k' (ids' s') s' q) = Ok p' /\ toP p = toP p'.
  Proof.
    intros c W m n C C' T.
    destruct (C55_function_answers_partial io so po dlaw Ed hash ids raw nominal derived cuts Hid Hh c W m C T) as (j & K).
    destruct (C55_function_answers_partial io' so' po' dlaw Ed hash' ids' raw' nominal derived cuts Hid' Hh' c W n C' T) as (j' & K').
    exists (j + j')%nat. intros fuel fuel' F F'.
    destruct (K fuel ltac:(lia)) as (s & E & A). destruct (K' fuel' ltac:(lia)) as (s' & E' & A'). exists s, s'. split; auto. split; auto.
    intros q k k' Hk Hk' Pq Pq' V Sr. destruct (A q k Hk Pq V Sr) as (p & Ep & P). destruct (A' q k' Hk' Pq' V Sr) as (p' & Ep' & P').
    exists p, p'. split; auto. split; auto. rewrite (P w0), (P' w0). reflexivity.
  Qed.
End Properties.
