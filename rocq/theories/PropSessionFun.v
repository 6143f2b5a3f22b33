(** Property C60 for observations that compare functions of variables. *)
From Coq Require Import List Bool String Reals Lra Lia ZArith QArith Qreals PeanoNat FunctionalExtensionality Permutation Classical.
From Verif Require Import Base Num Sets SetSpec SetIv SetProofs SetOr SetOps SetAlg SetBuilt
  Poly Trans TransSpec TransFacts PolyProofs InvProofs InvMain EvProofs ArithProofs
  Dnf DnfSpec DnfProofs DnfUnion PropDnf Logs Spe SpeSpec SpeFacts SpeRect LeafProofs LeafEvents LeafCond SpeCons LeafGiven MemoProofs
  NormSorts LogprobProofs LogprobTop SpeEq SimplifyProofs CondTypes CondProofs CondTop PropSpe SpeOps OpsProofs BuildProofs TransformProofs PropCons Prog ProgSpec ProgEvents ProgProofs PropProg
  TotalSpec TotalEnds TotalSets TotalSolve TotalProofs PropTotal TotalUnion TotalGrid CondLeafTotal SimplifyTotal TightUnion Diffuse CondTotal PropCondTotal BranchTotal ReturnSpec SwitchTotal ReturnProofs CondShape CompileSpec CompileProofs SessionSpec PropSession
  SolveSpec InvTotal AskSpec NarrowTotal TotalAsk PropAsk FunSpec FunTotal PropFun.
Import ListNotations.
Local Open Scope R_scope.

Section Properties.
  Context {N : numsys} {S : logsys} {D : distsys N S} (io : iterorder N) (so : strorder) (po : polyoracle N) (fuel : nat).
  Context (dlaw : dist D -> (fval -> R) -> R) (Ed : eq_dist dlaw).
  Context (ids : spe D -> spe D -> nat) (hash : spe D -> Z) (nominal : string -> bool) (envof : string -> tenv (N:=N)).
  Notation spe := (spe D).
  Notation tr := (tr N).
  Notation den := (den dlaw).
  Notation Pr := (Pr dlaw).
  Notation wf_spe := (wf_spe dlaw).
  Notation typed := (typed (D:=D) nominal envof).
  Notation none := (fun (_ : string) (_ : R) => False).
  Notation conditionable := (conditionable dlaw nominal).
  Notation step := (fun s e => fresh (condition io so po fuel (ids s) hash s e)).
  Notation ask s e := (fresh (logprob io po fuel (ids s) s e)).
  Context (Hid : forall s, distinct (ids s) s) (Hf : (2 <= fuel)%nat).
  Context (derived : string -> bool) (cuts : string -> R -> Prop).
  Notation tidy := (tidy (D:=D) nominal derived cuts True).
  Notation posed := (posed po nominal cuts none).
  Notation observation := (observation (D:=D) nominal derived cuts).

  (** An observation as in C60_exactly_partial, or a conjunction of comparisons of sampled variables
      and of one-to-one functions of them, which are defined almost surely. *)
  Definition sampled (s : spe) (e : tr) : Prop := (forall x, In x (symbols e) -> vars s x /\ derived x = false) /\ two (base derived (vars s)).
  Definition observed (s : spe) (e : tr) : Prop :=
    observation s e /\ (1 + 2 ^ List.length (etests e) <= fuel)%nat \/
    posed e /\ conjunctive e /\ Forall thin (lits e) /\ sampled s e /\ surely dlaw s (regular true e).

  Lemma posed_univariate : forall e, posed e -> univariate e.
  Proof.
    intros e (_ & F & _). unfold univariate. eapply Forall_impl; [|exact F]. intros a [(k & x & v & -> & _)|(j & t & v & x & -> & _ & _ & Sx & _)]; exists x; [intros y [<-|[]]; reflexivity|]. unfold only. cbn [symbols]. rewrite Sx. intros y [<-|[]]. reflexivity.
  Qed.
  Lemma sampled_own : forall s e, wf_spe s -> tidy s -> sampled s e -> forall x, In x (symbols e) -> own s x.
  Proof. intros s e W Td (Sy & _) x Hx. destruct (Sy x Hx). now apply (tidy_own dlaw nominal derived cuts True). Qed.
  Lemma observed_univariate : forall s e, observed s e -> univariate e.
  Proof. intros s e [(O & _)|(P & _)]; [now apply (observation_univariate nominal derived cuts s)|now apply posed_univariate]. Qed.
  Lemma observed_conditionable : forall s e, wf_spe s -> tidy s -> observed s e -> conditionable s e.
  Proof.
    intros s e W Td [(O & _)|(P & _ & _ & Sa & Sr)]; [now apply (observation_conditionable dlaw nominal derived cuts)|]. apply (posed_conditionable po dlaw nominal cuts none); auto. now apply sampled_own.
  Qed.
  Lemma observed_returns : forall s e, wf_spe s -> typed s -> tidy s -> observed s e -> 0 < prob dlaw s e -> exists t, step s e = Ok t.
  Proof.
    intros s e W T Td [(O & Hn)|(P & Cj & Th & Sa & Sr)] Pos; [now apply (step_returns io so po dlaw Ed ids hash nominal envof Hid derived cuts)|].
    destruct (tidy_open nominal derived cuts True s Td) as (Op & St). destruct (C58_condition_partial io so po fuel dlaw Ed (ids s) hash nominal cuts none envof Hf s e W T (Hid s) (wide_not_leaf dlaw nominal derived cuts s W Td (proj2 Sa)) Op St P Cj Th (sampled_own s e W Td Sa) Sr Pos) as (t & Et & _). eauto.
  Qed.
  Lemma sampled_vars : forall s t e, (forall x, vars t x <-> vars s x) -> sampled s e -> sampled t e.
  Proof. intros s t e V (Sy & K). split; [intros x Hx; rewrite V; auto|]. apply (two_iff (base derived (vars s))); auto. intros x. apply base_iff. intros y. symmetry. apply V. Qed.
  Lemma observed_given : forall s F t e, wf_spe s -> cond_ok dlaw nominal envof s F t -> observed s e -> observed t e.
  Proof.
    intros s F t e W C [(O & Hn)|(P & Cj & Th & Sa & Sr)]; [left; split; auto; now apply (observation_vars nominal derived cuts s); [apply C|]|]. right. split; auto. split; auto. split; auto. split; [apply (sampled_vars s); auto; apply C|].
    apply (given_surely dlaw nominal envof s F t); auto. apply regular_simple; auto; [apply P|now apply posed_univariate].
  Qed.
  Lemma session_fun : forall es s, wf_spe s -> typed s -> tidy s -> Forall (observed s) es -> 0 < Pr s (all_hold es) ->
    exists t, observe step es s = Ok t /\ wf_spe t /\ typed t /\ tidy t /\ (forall x, vars t x <-> vars s x) /\ cond_ok dlaw nominal envof s (all_hold es) t.
  Proof.
    induction es as [|e es IH]; intros s W T Td F P.
    - exists s. split; [reflexivity|]. assert (C : cond_ok dlaw nominal envof s (all_hold (N:=N) []) s) by (apply cond_ok_true; auto; intros w e []). split; auto. split; auto. split; auto. split; [tauto|exact C].
    - inversion F as [|? ? Oe F']; subst.
      assert (Le : Pr s (all_hold (e :: es)) <= prob dlaw s e).
      { apply (law_mono (den_kernel dlaw s W w0)); auto with bnd. intros a. unfold ind. destruct (dec (all_hold (e :: es) a)) as [H|], (dec (holds e a)) as [|H']; try lra. exfalso. apply H'. now apply all_cons in H. }
      destruct (observed_returns s e) as (s1 & E1); auto; [lra|]. pose proof (observed_conditionable s e W Td Oe) as Ce.
      pose proof (fresh_condition io so po fuel dlaw Ed (ids s) hash nominal envof s e s1 W T (Hid s) Ce E1) as C1. pose proof C1 as (W1 & V1 & T1 & P1 & G1).
      assert (Td1 : tidy s1) by (apply (condition_tidy io so po fuel (ids s) hash nominal derived cuts True s e Td Memo); auto; constructor).
      assert (Sq : simple (ind (all_hold es))).
      { apply all_simple. rewrite Forall_forall in *. intros f Hf'. split; [apply (observed_conditionable s f W Td (F' f Hf'))|apply (observed_univariate s f (F' f Hf'))]. }
      pose proof (G1 _ Sq w0) as G3.
      assert (Ea : den s (fun a => ind (all_hold es) a * ind (holds e) a) w0 = Pr s (all_hold (e :: es))).
      { unfold SpeSpec.Pr. f_equal. extensionality a. rewrite (ind_eq _ _ (all_hold (e :: es)) (fun a => holds e a /\ all_hold es a) a a) by apply all_cons. rewrite ind_and. ring. }
      destruct (IH s1) as (t & Et & Wt & Tt & Tdt & Vt & _); auto.
      + eapply Forall_impl; [|exact F']. intros f Of. now apply (observed_given s (holds e) s1).
      + change (den s1 (ind (all_hold es)) w0) with (Pr s1 (all_hold es)) in G3. rewrite Ea in G3. specialize (P1 w0). pose proof (law_01 (den_kernel dlaw s1 W1 w0) (all_hold es)) as B. destruct (Rle_lt_or_eq_dec _ _ (proj1 B)) as [K|K]; auto. exfalso. unfold SpeSpec.Pr in K, G3. rewrite <- K in G3. unfold SpeSpec.Pr in P. lra.
      + assert (Es : observe step (e :: es) s = Ok t) by (cbn [observe]; rewrite E1; exact Et). exists t. split; [exact Es|]. split; auto. split; auto. split; auto. split; [intros x; now rewrite Vt|].
        apply (session_ok io so po dlaw Ed ids hash nominal envof Hid fuel (e :: es) s t W T); [|exact Es]. rewrite Forall_forall in *. intros f Hf'. split; [now apply observed_conditionable, F|now apply (observed_univariate s), F].
  Qed.
  (** A session runs to the end exactly if its observations are possible together. *)
  Theorem C60_functions_partial : forall es s, wf_spe s -> typed s -> tidy s -> Forall (observed s) es -> ((exists t, observe step es s = Ok t) <-> Pr s (all_hold es) <> 0).
  Proof.
    intros es s W T Td F. split.
    - intros (t & Ht). destruct (C60_steps io so po dlaw Ed ids hash nominal envof Hid fuel es s t W T) as (_ & _ & P & _); auto; [|lra]. eapply Forall_impl; [|exact F]. intros e Oe. split; [now apply observed_conditionable|now apply (observed_univariate s)].
    - intros Nz. destruct (session_fun es s) as (t & Ht & _); eauto. pose proof (law_01 (den_kernel dlaw s W w0) (all_hold es)) as B. unfold SpeSpec.Pr in *. lra.
  Qed.

  (** ** Questions after it *)
  Lemma tidy_prepared : forall asked : string -> Prop, (forall x, asked x -> derived x = false) -> forall s many, tidy s -> open_leaves nominal cuts many s -> prepared po nominal cuts none asked many s.
  Proof.
    intros asked A. induction s using spe_ind'; intros many T O; pose proof (every_here _ _ T) as P; cbn in P; cbn [open_leaves prepared] in *.
    - destruct P as ((P1 & P2 & P3) & _). assert (K : forall z, asked z -> In z (map fst env) -> z = x) by (intros z Az Iz; destruct (P3 z Iz) as (_ & [E|E]); auto; rewrite (A z Az) in E; discriminate).
      split; [intros y z Ay Az Iy Iz; rewrite (K y Ay Iy), (K z Az Iz); reflexivity|]. intros z Az Iz. split; [apply (P3 z Iz)|]. left. split; [now apply K|]. apply O.
    - destruct P as (P1 & P2 & P3). assert (K : forall z, asked z -> In z (map fst env) -> z = x) by (intros z Az Iz; destruct (P3 z Iz) as (_ & [E|E]); auto; rewrite (A z Az) in E; discriminate).
      split; [intros y Iy; apply (P3 y Iy)|]. split; [intros y z Ay Az Iy Iz; rewrite (K y Ay Iy), (K z Az Iz); reflexivity|]. intros z Az Iz. left. now apply K.
    - apply P.
    - apply all_forall. intros c Hc. apply H; auto; [eapply every_sum; eauto|exact (All_In _ _ _ c O Hc)].
    - apply all_forall. intros c Hc. apply H; auto; [eapply every_prod; eauto|exact (All_In _ _ _ c O Hc)].
  Qed.
  (** Any combination of comparisons of sampled variables and of functions of them is then answered
      with the conditional probability given the observations. *)
  Theorem C60_function_answers_partial : forall es s, wf_spe s -> typed s -> tidy s -> Forall (observed s) es -> 0 < Pr s (all_hold es) ->
    exists t, observe step es s = Ok t /\
      forall q, posed q -> sampled s q -> surely dlaw s (regular true q) -> exists p, ask t q = Ok p /\ toP p * Pr s (all_hold es) = Pr s (fun w => holds q w /\ all_hold es w).
  Proof.
    intros es s W T Td F P. destruct (session_fun es s) as (t & Ht & Wt & Tt & Tdt & Vt & Ct); auto. exists t. split; auto. intros q Pq Sq Rq.
    pose proof (sampled_vars s t q Vt Sq) as Sq'. pose proof Ct as (_ & _ & _ & _ & Gt).
    destruct (products_ready nominal derived cuts True t (holds q) Tdt (wide_products dlaw nominal derived cuts True t Wt Tdt (proj2 Sq'))) as (Ot & _).
    destruct (C58_answers_partial io po fuel dlaw (ids t) hash nominal cuts none Hf t q Wt (Hid t) (wide_not_leaf dlaw nominal derived cuts t Wt Tdt (proj2 Sq'))) as (p & Ep & Tp); auto.
    { apply tidy_prepared; auto. intros x Hx. now apply (proj1 Sq'). }
    { intros x Hx. now apply (proj1 Sq'). }
    exists p. split; auto. rewrite Tp.
    - unfold prob, SpeSpec.Pr. rewrite (Gt (ind (holds q))) by (apply event_simple; [apply Pq|now apply posed_univariate]). f_equal. extensionality a. symmetry. apply ind_and.
    - apply (given_surely dlaw nominal envof s (all_hold es) t); auto. apply regular_simple; auto; [apply Pq|now apply posed_univariate].
  Qed.
End Properties.
