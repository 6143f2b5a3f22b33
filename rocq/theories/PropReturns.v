(** Properties C33 and C34, for comparisons of variables: IfElse and Switch give a result when
    their branches do. *)
From Coq Require Import List Bool String Reals Lra Lia ZArith PeanoNat.
From Verif Require Import Base Num Sets SetSpec SetIv SetProofs SetOr SetOps SetAlg SetBuilt
  Poly Trans TransSpec TransFacts PolyProofs InvProofs InvMain EvProofs ArithProofs
  Dnf DnfSpec DnfProofs DnfUnion PropDnf Logs Spe SpeSpec SpeFacts SpeRect LeafProofs LeafEvents LeafCond SpeCons LeafGiven MemoProofs
  NormSorts LogprobProofs LogprobTop SpeEq SimplifyProofs CondTypes CondProofs CondTop PropSpe SpeOps OpsProofs BuildProofs TransformProofs PropCons Prog ProgSpec ProgEvents ProgProofs PropProg
  TotalSpec TotalEnds TotalSets TotalSolve TotalProofs PropTotal TotalUnion TotalGrid CondLeafTotal SimplifyTotal TightUnion Diffuse CondTotal PropCondTotal BranchTotal ReturnSpec SwitchTotal ReturnProofs.
Import ListNotations.
Local Open Scope R_scope.

Section Properties.
  Context {N : numsys} {S : logsys} {D : distsys N S} (io : iterorder N) (so : strorder) (po : polyoracle N).
  Context (dlaw : dist D -> (fval -> R) -> R) (Ed : eq_dist dlaw).
  Context (hash : spe D -> Z) (ids : spe D -> spe D -> nat) (no_simplify : bool) (nominal : string -> bool).
  Notation spe := (spe D).
  Notation tr := (tr N).
  Notation command := (command (N:=N) (D:=D)).
  Notation Pr := (Pr dlaw).
  Notation wf_spe := (wf_spe dlaw).
  Notation surely := (surely dlaw).
  Notation none := (fun (_ : string) (_ : R) => False).
  Notation interpret fuel := (interpret io so po fuel hash ids no_simplify).
  Notation case := ((asg -> Prop) * command)%type.
  Context (Hid : forall s, distinct (ids s) s).
  (** With enough rounds, the branch of every case of positive probability runs on the
      expressions given the case, and what it leaves can be put together. *)
  Definition branches_run (envof envof' : string -> tenv (N:=N)) (V' : string -> Prop) (leaves : bool) (s : spe) (cases : list case) : Prop :=
    exists k, forall fuel P c c', (k <= fuel)%nat -> In (P, c) (firsts cases) -> conditioned dlaw nominal envof s P c' ->
      exists d, interpret fuel c (Some c') = Ok (Some d) /\ joinable dlaw no_simplify nominal envof' V' leaves d.

  (** Restricted to conditions made of comparisons of variables with numbers, intervals and
      strings (no transforms and no comparisons of derived variables), and to cases that are even where the
      expression is a continuous leaf. *)
  Theorem C33_returns_partial : forall cuts envof envof' V' leaves es (bs : list (option tr * command)) s,
    wf_spe s -> typed nominal envof s -> open_leaves nominal cuts true s -> steady cuts none s ->
    conditions_ok es (map fst bs) -> (forall e, In e es -> direct nominal cuts none e /\ (forall x, In x (symbols e) -> own s x) /\ Forall nonvoid (lits e)) ->
    surely s (fun a => exists b, In b bs /\ test (fst b) a) ->
    (forall P c, In (P, c) (firsts (cases_of bs)) -> 0 < Pr s P -> even P s) ->
    branches_run envof envof' V' leaves s (cases_of bs) ->
    exists rounds, forall fuel, (rounds <= fuel)%nat -> exists t, interpret fuel (IfElse bs) (Some s) = Ok (Some t).
  Proof.
    intros cuts envof envof' V' leaves es bs s W T O St Ch Gd Ex Ev (k & Run). exists (Nat.max 1 (Nat.max k (2 ^ List.length (asks es)))). intros fuel Hn.
    destruct (if_returns io so po fuel dlaw Ed hash ids no_simplify nominal Hid ltac:(lia) cuts envof envof' V' leaves (fun _ => True) (fun _ => True) es bs s) as (t & Et & _); eauto; [lia| |].
    - intros evs rows _ _. apply Forall_forall. auto.
    - intros P c c' Hp Hc _. destruct (Run fuel P c c') as (t & K1 & K2); auto; [lia|]. exists t. auto.
  Qed.

  (** The cases of a numeric variable are numbers and intervals, and an interval is disjoint from
      the cases before it. *)
  Theorem C34_returns_partial : forall cuts envof envof' V' leaves x vs (f : nat -> sval (N:=N) -> command) s,
    wf_spe s -> typed nominal envof s -> open_leaves nominal cuts true s -> steady cuts none s ->
    own s x -> Forall (plain_case nominal cuts x) vs -> ForallOrdPairs (separate nominal x) vs ->
    surely s (fun a => exists v, In v vs /\ matches x v a) ->
    (forall P c, In (P, c) (firsts (map (fun p => (matches x (snd p), f (fst p) (snd p))) (numbered vs))) -> 0 < Pr s P -> even P s) ->
    branches_run envof envof' V' leaves s (map (fun p => (matches x (snd p), f (fst p) (snd p))) (numbered vs)) ->
    exists rounds, forall fuel, (rounds <= fuel)%nat -> exists t, interpret fuel (Switch x vs f) (Some s) = Ok (Some t).
  Proof.
    intros cuts envof envof' V' leaves x vs f s W T O St Vx Fv Sp Ex Ev (k & Run). destruct (switch_events_total io nominal cuts x vs Fv Sp) as (es & Ee & Fe).
    exists (Nat.max 1 (Nat.max k (2 ^ List.length (asks es)))). intros fuel Hn.
    destruct (switch_returns io so po fuel dlaw Ed hash ids no_simplify nominal Hid ltac:(lia) cuts envof envof' V' leaves (fun _ => True) (fun _ => True) x vs f es s) as (t & Et & _); eauto; [|lia| |].
    - eapply Forall_impl; [|exact Fv]. intros v (Cv & _). exact Cv.
    - intros rows _. apply Forall_forall. auto.
    - intros P c c' Hp Hc _. destruct (Run fuel P c c') as (t & K1 & K2); auto; [lia|]. exists t. auto.
  Qed.
End Properties.
