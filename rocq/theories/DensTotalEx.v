(** Cases for the theorems of PropDensTotal.v, and a refutation. *)
From Coq Require Import List Bool String Reals Lra Lia ZArith QArith Qabs Qreals FunctionalExtensionality.
From Verif Require Import Base Num Sets SetSpec SetIv SetProofs SetOr SetOps SetAlg SetBuilt
  Poly Trans TransSpec TransFacts PolyProofs InvProofs InvMain EvProofs ArithProofs PolyEx
  Dnf DnfSpec DnfProofs DnfUnion Logs Spe SpeSpec SpeFacts SpeRect LeafProofs LeafEvents LeafCond SpeCons LeafGiven MemoProofs PropTrans NormSorts LogprobProofs LogprobTop SpeEq SimplifyProofs CondTypes CondProofs CondTop PropSpe Uniform Instances SpeEx
  SpeOps OpsProofs BuildProofs TransformProofs PropCons ConsEx Same ProgEx DensSpec DensProofs ConstrainProofs DensLimit DensPoint PropDens DensTotal PropDensTotal DensEx.
Import ListNotations.
Local Open Scope R_scope.
Local Open Scope string_scope.

Lemma portion_step : forall (V : string -> Prop) p (a : values), portion V (p :: a) = if dec (V (fst p)) then p :: portion V a else portion V a.
Proof. intros V p a. unfold portion. cbn [filter]. now destruct (dec (V (fst p))). Qed.
(** a product of a number X and the string Y, when both are assigned, or X only *)
Lemma m_asked : forall (s : spQ) ws q y, is_leaf s = true -> base s = "X" -> (forall z, vars s z <-> z = "X") -> asked (ProductSPE [s; NominalLeaf "Y" ws]) (values_of (xy q y)).
Proof.
  intros s ws q y L B Vs. cbn [values_of xy map fst snd]. split; [intros p [<-|[<-|[]]]; cbn [vars Any fst]; rewrite ?Vs; auto|]. split; [|split; [|exact Logic.I]]; right.
  - rewrite !portion_step. cbn [fst]. destruct (dec (vars s "X")) as [K|K]; [|destruct K; now apply Vs]. destruct (dec (vars s "Y")) as [K'|K']; [apply Vs in K'; discriminate|]. destruct s; try discriminate; cbn [base] in B; subst; eexists; reflexivity.
  - rewrite !portion_step. cbn [fst vars]. destruct (dec ("Y" = "X")) as [K|K]; [discriminate|]. destruct (dec ("Y" = "Y")) as [K'|K']; [|tauto]. eexists; reflexivity.
Qed.
Lemma m_asked1 : forall (s : spQ) ws q, is_leaf s = true -> base s = "X" -> (forall z, vars s z <-> z = "X") -> asked (ProductSPE [s; NominalLeaf "Y" ws]) (values_of (xa q)).
Proof.
  intros s ws q L B Vs. cbn [values_of xa map fst snd]. split; [intros p [<-|[]]; cbn [vars Any fst]; rewrite ?Vs; auto|]. split; [right|split; [left|exact Logic.I]].
  - rewrite !portion_step. cbn [fst]. destruct (dec (vars s "X")) as [K|K]; [|destruct K; now apply Vs]. destruct s; try discriminate; cbn [base] in B; subst; eexists; reflexivity.
  - rewrite !portion_step. cbn [fst vars]. destruct (dec ("Y" = "X")) as [K|K]; [discriminate|reflexivity].
Qed.
Lemma lu_vars : forall z, vars (lu "X") z <-> z = "X".
Proof. cbn. intuition. Qed.
Lemma ld_vars : forall z, vars (ld "X") z <-> z = "X".
Proof. cbn. intuition. Qed.
Lemma mx_answerable : forall q y, answerable mx (xy q y).
Proof.
  intros q y. split; [apply xy_dict|]. split; [discriminate|]. split.
  - split; [apply m_asked; [reflexivity|reflexivity|exact lu_vars]|]. split; [apply m_asked; [reflexivity|reflexivity|exact ld_vars]|exact Logic.I].
  - cbn. repeat split; auto; intros z _ r [E|[E|[]]]; injection E as <- <-; reflexivity.
Qed.
Lemma mx_answerable1 : forall q, answerable mx (xa q).
Proof.
  intros q. split; [apply xa_dict|]. split; [discriminate|]. split.
  - split; [apply m_asked1; [reflexivity|reflexivity|exact lu_vars]|]. split; [apply m_asked1; [reflexivity|reflexivity|exact ld_vars]|exact Logic.I].
  - cbn. repeat split; auto; intros z _ r [E|[E|[]]]; injection E as <- <-; reflexivity.
Qed.
(** a mixture of a continuous and a discrete X, with a nominal Y *)
Example C36_returns_case : forall q y, exists p, fresh (SpeOps.logpdf (ids_of mx) mx (xy q y)) = Ok p /\ @toP LQ p = snd (density elaw edpdf mx (values_of (xy q y))).
Proof. intros q y. exact (C36_returns_partial elaw edpdf edpdf_ok (ids_of mx) exnom exenvof mx (xy q y) mx_wf (ids_distinct mx) (mx_answerable q y)). Qed.
(** an atom: its variable cannot be assigned *)
Example C36_exactly_case : ~ answerable mxa (xa (1#2)).
Proof.
  intros K. assert (W : wf_spe elaw mxa) by exact (C37_wf so_id elaw edpdf edpdf_ok (ids_of mx) exnom exenvof mx _ mxa mx_wf (ids_distinct mx) (mx_consable _) mx_cons).
  destruct (proj2 (C36_exactly_partial elaw edpdf edpdf_ok (ids_of mxa) exnom exenvof mxa (xa (1#2)) W (ids_distinct mxa) (xa_dict _)) K) as (p & Hp). discriminate.
Qed.
Example C36_after_case : forall q y, exists p, fst (asked_after (SpeOps.logpdf (ids_of mx) mx (xy q y))) = Ok p /\ @toP LQ p = snd (density elaw edpdf mx (values_of (xy q y))).
Proof. intros q y. exact (C36_after_partial ioQ so_id po 9 elaw elaw_eq edpdf edpdf_ok (ids_of mx) exhash exnom exenvof (within mx) hist mx (xy q y) (within_closed (ids_of mx) mx (ids_distinct mx)) hist_fine (within_self mx) mx_wf (mx_answerable q y)). Qed.
Lemma mx_fixable : forall q, fixable mx (xa q).
Proof. intros q. split; [apply mx_answerable1|]. split; [apply mx_consable|]. cbn. repeat split; auto; intuition. Qed.
Lemma positive_at : forall (s : spQ) a p, wf_spe elaw s -> dictionary a -> Qltb 0 p = true -> fresh (SpeOps.logpdf (ids_of s) s a) = Ok p -> 0 < snd (density elaw edpdf s (values_of a)).
Proof.
  intros s a p W Da Hp H. rewrite <- (C36_logpdf elaw edpdf edpdf_ok (ids_of s) exnom exenvof s a p W (ids_distinct s) Da H). apply Q2R_lt in Hp. rewrite Q2R_0 in Hp. rewrite lqP'; auto. apply Qle_bool_R. rewrite Q2R_0. lra.
Qed.
(** X = 1/2 can be assigned, X = 5 cannot *)
Example C37_exactly_case : (exists t, fresh (cons mx (xa (1#2))) = Ok t) /\ ~ exists t, fresh (cons mx (xa 5)) = Ok t.
Proof.
  split.
  - apply (C37_exactly_partial so_id elaw edpdf edpdf_ok (ids_of mx) exnom exenvof mx (xa (1#2)) mx_wf (ids_distinct mx) (mx_fixable _)). now apply (positive_at mx (xa (1#2)) (1#2)%Q mx_wf (xa_dict _)).
  - intros K. apply (C37_exactly_partial so_id elaw edpdf edpdf_ok (ids_of mx) exnom exenvof mx (xa 5) mx_wf (ids_distinct mx) (mx_fixable _)) in K.
    rewrite <- (C36_logpdf elaw edpdf edpdf_ok (ids_of mx) exnom exenvof mx (xa 5) 0%Q mx_wf (ids_distinct mx) (xa_dict _) eq_refl) in K. rewrite lqP' in K by reflexivity. rewrite Q2R_0 in K. lra.
Qed.
Example C37_after_case : exists t, fst (asked_after (SpeOps.constrain so_id (ids_of mx) mx (xa 2))) = Ok t /\ wf_spe elaw t /\ forall f w, den elaw t f w = fixed elaw edpdf mx (values_of (xa 2)) f w.
Proof.
  apply (C37_after_partial ioQ so_id po 9 elaw elaw_eq edpdf edpdf_ok (ids_of mx) exhash exnom exenvof (within mx) hist mx (xa 2) (within_closed (ids_of mx) mx (ids_distinct mx)) hist_fine (within_self mx) mx_wf (mx_fixable _)).
  now apply (positive_at mx (xa 2) (1#8)%Q mx_wf (xa_dict _)).
Qed.

(** Without the condition on derived variables the code violates the claim.  In one term of the
    mixture Z is 2*X + 1, in the other it is a variable of its own; the first loses Z when X is
    assigned, and the sum of the results is refused. *)
Definition mz : spQ := SumSPE (S:=LQ) [(ux, 1#2); (ProductSPE [lu "X"; lu "Z"], 1#2)]%Q.
Lemma mz_wf : wf_spe elaw mz.
Proof.
  apply two_wf; [exact ux_wf| |cbn; tauto|reflexivity|reflexivity|unfold Q2R; cbn; lra]. apply prod_wf; [exact (lu_wf "X")|exact (lu_wf "Z")|]. intros x [<-|[]] [K|[]]. discriminate.
Qed.
Theorem C37_lost_refuted : exists (s : spQ) a, wf_spe elaw s /\ answerable s a /\ constrainable s a /\ 0 < snd (density elaw edpdf s (values_of a)) /\ fresh (cons s a) = Raise ValueError.
Proof.
  exists mz, (xa (1#2)). split; [exact mz_wf|]. split; [|split; [|split; [|reflexivity]]].
  - apply (C36_exactly_partial elaw edpdf edpdf_ok (ids_of mz) exnom exenvof mz (xa (1#2)) mz_wf (ids_distinct mz) (xa_dict _)). now exists 1%Q.
  - split; [|split; [apply xa_dict|intros x [<-|[]]; cbn; tauto]]. apply two_heavy; try reflexivity; [cbn; tauto|now apply m_heavy].
  - now apply (positive_at mz (xa (1#2)) 1%Q mz_wf (xa_dict _)).
Qed.

Definition all_dens_total_properties := (@C36_returns_partial, @C36_exactly_partial, @C36_after_partial, @C37_exactly_partial, @C37_after_partial, @C37_lost_refuted).
Print Assumptions all_dens_total_properties.
