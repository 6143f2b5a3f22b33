(** Property C38, continued: mutual information of comparisons of variables can always be
    computed (src/spe.py:87-103). *)
From Coq Require Import List Bool String Reals Lra Lia ZArith QArith Qreals PeanoNat.
From Verif Require Import Base Num Sets SetSpec SetIv SetProofs SetOr SetOps SetAlg SetBuilt
  Poly Trans TransSpec TransFacts PolyProofs InvProofs InvMain EvProofs ArithProofs
  Dnf DnfSpec DnfProofs DnfUnion PropDnf Logs Spe SpeSpec SpeFacts SpeRect LeafProofs LeafEvents LeafCond SpeCons LeafGiven MemoProofs
  NormSorts LogprobProofs LogprobTop SpeEq SimplifyProofs CondTypes CondProofs CondTop PropSpe SpeOps OpsProofs BuildProofs TransformProofs PropCons Prog ProgSpec ProgEvents ProgProofs PropProg MISpec PropMI
  TotalSpec TotalEnds TotalSets TotalSolve TotalProofs PropTotal TotalUnion TotalGrid CondLeafTotal SimplifyTotal TightUnion Diffuse CondTotal PropCondTotal BranchTotal ReturnSpec SwitchTotal ReturnProofs.
Import ListNotations.
Local Open Scope R_scope.

Section Properties.
  Context {N : numsys} {S : logsys} {D : distsys N S} (io : iterorder N) (po : polyoracle N) (fuel : nat).
  Context (dlaw : dist D -> (fval -> R) -> R).
  Context (ident : spe D -> nat) (hash : spe D -> Z) (nominal : string -> bool) (cuts : string -> R -> Prop) (envof : string -> tenv (N:=N)).
  Notation spe := (spe D).
  Notation tr := (tr N).
  Notation none := (fun (_ : string) (_ : R) => False).
  Notation about s e := (forall x, In x (symbols e) -> own s x).
  Notation mutual_information := (mutual_information io po fuel ident).
  Context (Hf : (1 <= fuel)%nat).
  Lemma direct_decided : forall (s : spe) (e : tr), wf_spe dlaw s -> typed nominal envof s -> direct nominal cuts none e -> Forall nonvoid (lits e) -> about s e -> decided dlaw nominal s e.
  Proof.
    intros s e W T De Nv Ab. pose proof (direct_cmps nominal cuts none e De) as Ce. split; [apply De|]. split; [now apply (cmps_sorts nominal cuts none)|]. split; auto.
    apply (surely_and dlaw); auto.
    - intros w. rewrite (law_ext (I:=fun g => SpeSpec.den dlaw s g w) _ (fun _ => 0)); [apply (law_const (den_kernel dlaw s W w))|]. intros x. apply ind_false. intros K. apply K. apply on_vars_regular; [apply De|now apply (cmps_on_vars nominal cuts none)].
    - intros w. apply (law_null_sub (den_kernel dlaw s W w) (fun a => ~ proper nominal s a)); [now apply (proper_sure dlaw nominal envof)|].
      intros a H K. apply H. apply (direct_defined nominal cuts s); auto. intros x Hx. apply (own_vars dlaw); auto.
  Qed.
  (** the information that combinations of comparisons have about each other is computed *)
  Theorem C38_answers : forall s a b, wf_spe dlaw s -> typed nominal envof s -> distinct ident s -> open_leaves nominal cuts true s -> is_leaf s = false ->
    direct nominal cuts none a -> direct nominal cuts none b -> Forall nonvoid (lits a) -> Forall nonvoid (lits b) -> about s a -> about s b ->
    exists r, mutual_information s a b = Ok r /\ r = information dlaw s (holds a) (holds b).
  Proof.
    intros s a b W T Ds O Nl Da Db Na Nb Va Vb. pose proof (open_atoms nominal cuts s true O) as At.
    pose proof (direct_decided s a W T Da Na Va) as Ca. pose proof (direct_decided s b W T Db Nb Vb) as Cb.
    set (es := [a; b]). assert (Fe : Forall (direct nominal cuts none) es) by (constructor; [exact Da|constructor; [exact Db|constructor]]).
    set (marks := named es). set (probes := asks es).
    assert (Mk : forall x r, nominal x = false -> marks x r -> In (is_below x r) probes /\ In (is_at x r) probes) by (intros x r _; apply asks_marked).
    assert (Cut : forall x r, marks x r -> cuts x r) by (intros x r; now apply (named_cut nominal cuts es)).
    assert (Ka : kept nominal marks probes a) by (apply (asks_kept nominal cuts es); auto; simpl; tauto).
    assert (Kb : kept nominal marks probes b) by (apply (asks_kept nominal cuts es); auto; simpl; tauto).
    destruct (not_kept io nominal marks probes Mk a Ka Na) as (na & Ena & Kna). destruct (not_kept io nominal marks probes Mk b Kb Nb) as (nb & Enb & Knb).
    destruct (and_kept io nominal marks probes a b Ka Kb) as (c11 & E11 & K11). destruct (and_kept io nominal marks probes a nb Ka Knb) as (c10 & E10 & K10). destruct (and_kept io nominal marks probes na b Kna Kb) as (c01 & E01 & K01).
    set (V := own s). assert (Ia : Forall (inV V) (lits a)) by (now apply inV_lits). assert (Ib : Forall (inV V) (lits b)) by (now apply inV_lits).
    pose proof (inV_not io V a na Ena Ia) as Ina. pose proof (inV_not io V b nb Enb Ib) as Inb.
    pose proof (inV_and io V a b c11 E11 Ia Ib) as I11. pose proof (inV_and io V a nb c10 E10 Ia Inb) as I10. pose proof (inV_and io V na b c01 E01 Ina Ib) as I01.
    destruct (mi_returns io po fuel dlaw ident nominal s a b na nb c11 c10 c01) as (r & Hr); auto.
    2:{ exists r. split; auto. now apply (C38_value io po fuel dlaw ident nominal). }
    assert (Go : forall e m, kept nominal marks probes e -> Forall (inV V) (lits e) -> valid dlaw ident (within s) (fun _ => True) (fun _ => True) (fun _ => True) m -> exists p, fst (logprob io po fuel ident s e m) = Ok p).
    { intros e m Ke Ie Vm. apply (logprob_safe io po fuel dlaw ident hash nominal cuts none Hf (within s) (within_closed ident s Ds) (fun _ => True) (fun _ => True) (fun _ => True) s e true); auto; [apply within_self|now apply (kept_names nominal cuts marks probes)| | |discriminate].
      - apply (inV_lits V e). exact Ie.
      - intros Il. congruence. }
    intros e m He Vm. destruct He as [<-|[<-|[<-|[<-|[<-|[]]]]]]; auto.
  Qed.
End Properties.

Definition all_mi_total_properties := (@C38_answers).
Print Assumptions all_mi_total_properties.
