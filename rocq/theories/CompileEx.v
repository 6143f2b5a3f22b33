(** Cases and a refutation for C55. *)
From Coq Require Import List Bool String Reals Lra Lia ZArith QArith Qabs Qreals FunctionalExtensionality.
From Verif Require Import Base Num Sets SetSpec SetIv SetProofs SetOr SetOps SetAlg SetBuilt
  Poly Trans TransSpec TransFacts PolyProofs InvProofs InvMain EvProofs ArithProofs PolyEx
  Dnf DnfSpec DnfProofs DnfUnion Logs Spe SpeSpec SpeFacts SpeRect LeafProofs LeafEvents LeafCond SpeCons LeafGiven MemoProofs PropTrans NormSorts LogprobProofs LogprobTop SpeEq SimplifyProofs CondTypes CondProofs CondTop PropSpe Uniform Instances SpeEx
  SpeOps OpsProofs BuildProofs TransformProofs PropCons ConsEx Same Prog ProgSpec ProgEvents ProgProofs PropProg ProgEx TotalSpec TotalSets PropTotal TotalUnion TotalGrid PropCondTotal TotalEx CondTotalEx ReturnSpec SwitchTotal ReturnProofs PropReturns ReturnEx
  CondShape TransformTotal TransformShape CompileSpec CompileProofs PropCompile DensEx RenderFits.
Import ListNotations.
Local Open Scope R_scope.
Local Open Scope string_scope.

(** X is compared with numbers between 0 and 1, and the other variables with strings only *)
Definition cutsX (x : string) (r : R) : Prop := x = "X" /\ 0 < r < 1.
(** the defined variable *)
Definition dZ (x : string) : bool := String.eqb x "Z".
Lemma low4_plain : direct exnom cutsX none low4.
Proof.
  split; [apply (good_int X NInf (Fin (1#4)%Q) true false); exact Logic.I || reflexivity|]. constructor; [|constructor].
  exists KInt, "X", (iv NInf (Fin (1#4)%Q) true false). split; [reflexivity|]. split; [discriminate|]. split; [exact Logic.I|]. split; [reflexivity|]. split; [|intros vs y r [E|[]]; discriminate]. intros j [E|[]]. injection E as <-. intros r [E|E]; [discriminate|]. injection E as <-. split; [reflexivity|]. cbn. unfold Q2R; cbn. lra.
Qed.
Lemma yina_plain : direct exnom cutsX none yina.
Proof. split; [exact gev_yina|]. constructor; [|constructor]. exists KNom, "Y", (fn ["a"]). split; [reflexivity|]. right. exact Logic.I. Qed.
Lemma u_plain : forall x, exnom x = false -> dZ x = false -> plain_leaf elaw exnom dZ cutsX x (lu x).
Proof. intros x H Dx. split; [now apply sample_u|]. split; [exact Dx|]. split; [left; reflexivity|]. split; [split; auto; discriminate|discriminate]. Qed.
Lemma d_plain : forall x, exnom x = false -> dZ x = false -> x <> "X" -> plain_leaf elaw exnom dZ cutsX x (ld x).
Proof. intros x H Dx Ne. split; [now apply sample_d|]. split; [exact Dx|]. split; [left; reflexivity|]. split; [split; auto; discriminate|]. intros _ r [(E & _)|[]]. contradiction. Qed.
Lemma y_plain : plain_leaf elaw exnom dZ cutsX "Y" y1.
Proof. split; [|split; [reflexivity|split; [left; reflexivity|repeat split]]]. split; [apply y_wf; easy|]. split; [cbn; auto|]. intros z. cbn. intuition. Qed.

Definition V1 (z : string) : Prop := z = "X".
Definition V2 (z : string) : Prop := V1 z \/ z = "Y".
Definition V4 (z : string) : Prop := V2 z \/ z = "V".
Definition V5 (z : string) : Prop := V4 z \/ z = "U0".
Definition V6 (z : string) : Prop := V5 z \/ z = "U1".
Lemma two2 : two (base dZ V2).
Proof. exists "X", "Y". unfold V2, V1. repeat split; auto. discriminate. Qed.
(** the kernel of the first two commands *)
Lemma kernel_xy : meaning elaw (samp "Y" dY) (meaning elaw (samp "X" dU) start) = den elaw pxy.
Proof. reflexivity. Qed.
Lemma pos_yina : chance (den elaw pxy) (holds yina).
Proof.
  exists w0. assert (K : forall a, den elaw y1 (ind (holds yina)) a = 1/4).
  { intros a. cbn [den y1 nom_law map sumR fold_right fst snd]. 
    assert (H : forall v, holds yina (upd a "Y" (FStr v)) <-> v = "a").
    { intros v. unfold holds. cbn. unfold truth. destruct (dec _) as [H|H]; cbn in H; (split; intros E; [|try reflexivity]); [destruct H as [H|[]]; congruence|symmetry in E; now apply one_zero in E|]. exfalso. apply H. auto. }
    rewrite ind_true by (now apply H). rewrite ind_false by (rewrite H; discriminate). cbn. unfold Q2R; cbn. lra. }
  change (den elaw (lu "X") (fun a => den elaw y1 (ind (holds yina)) a) w0 <> 0). rewrite (den_ext elaw (lu "X") _ (fun _ => 1/4)) by exact K. rewrite (law_const (den_kernel elaw (lu "X") (lu_wf "X") w0)). lra.
Qed.

(** X ~ uniform; Y ~ choice; condition (Y == 'a'); switch (X): cases X < 1/4, X == 1/4, X > 1/4
    sample V; for i in range(2): sample Ui *)
Definition prog_s : cmdQ := Sequence [samp "X" dU; samp "Y" dY; Condition yina; Switch "X" vs_x f_x; For 0 2 (fun i => samp (if Z.eqb i 0 then "U0" else "U1") dU)].
Lemma branch_v : forall K m n v, compiles elaw exnom dZ cutsX (f_x n v) V2 K m V4 None.
Proof.
  intros K m n v. unfold f_x. assert (Z : exists z, V2 z) by (exists "X"; left; reflexivity). assert (Nv : ~ V2 "V") by (unfold V2, V1; intuition discriminate).
  destruct (Nat.eqb n 0); [apply (compiles_sample elaw exnom dZ cutsX "V" dU (lu "V"))|apply (compiles_sample elaw exnom dZ cutsX "V" dV (ld "V"))]; auto; try reflexivity; [now apply u_plain|now apply d_plain].
Qed.
Lemma vs_x_cuts : Forall (plain_case exnom cutsX "X") vs_x.
Proof.
  eapply Forall_impl; [|exact vs_x_plain]. intros v (Cv & K). split; auto. intros E. specialize (K E). destruct v as [[|[i| |]|]| |]; auto.
  - intros r Hr. split; [reflexivity|exact (K r Hr)].
  - split; [reflexivity|exact K].
Qed.
Lemma vs_x_cover : surely elaw pxy (fun a => exists v, In v vs_x /\ matches "X" v a).
Proof. apply C34_returns_case. Qed.
Example C55_compiles_case : compiles elaw exnom dZ cutsX prog_s (fun _ => False) start None V6 None /\ two (base dZ V6) /\ exists s, runs_f 20 prog_s None = Ok (Some s).
Proof.
  split; [|split; [exists "X", "Y"; unfold V6, V5, V4, V2, V1; repeat split; auto 8; discriminate|apply okopt_ok; vm_compute; reflexivity]].
  assert (Z : exists z, V2 z) by (exists "X"; left; reflexivity).
  apply compiles_cons with (V' := V1) (m' := Some (lu "X")); [apply (compiles_first elaw exnom dZ cutsX "X" dU (lu "X")); auto; [now apply u_plain|intros z; unfold V1; tauto]|].
  apply compiles_cons with (V' := V2) (m' := None); [apply (compiles_sample elaw exnom dZ cutsX "Y" dY y1); auto; [exists "X"; reflexivity|intros E; discriminate E|exact y_plain|intros z; reflexivity]|].
  apply compiles_cons with (V' := V2) (m' := None).
  { apply compiles_condition; auto; [split; [exact yina_plain|intros x [<-|[]]; split; [right|]; reflexivity]|left; exact two2|right; left; exact two2|exact pos_yina]. }
  apply compiles_cons with (V' := V4) (m' := None).
  { apply compiles_switch; auto; [split; [left|]; reflexivity|exact vs_x_cuts|exact vs_x_separate| |intros P c _ _; left; exact two2|].
    - rewrite kernel_xy. intros w. cbn [meaning]. unfold restrict. rewrite (law_null (den_kernel elaw pxy pxy_wf w) (fun a => ~ exists v, In v vs_x /\ matches "X" v a) _ (vs_x_cover w)); [unfold Rdiv; ring|auto with bnd|]. intros a H. rewrite ind_false; [ring|exact H].
    - intros P c Hc _. apply (in_map snd) in Hc. rewrite firsts_snd in Hc. cbn [snd] in Hc. destruct Hc as [<-|[<-|[<-|[]]]]; apply branch_v. }
  apply compiles_cons with (V' := V6) (m' := None); [|apply compiles_nil].
  apply compiles_for. cbn [range Z.to_nat Z.sub Pos.to_nat map seq].
  apply compiles_cons with (V' := V5) (m' := None); [apply (compiles_sample elaw exnom dZ cutsX "U0" dU (lu "U0")); auto; [exists "X"; unfold V4, V2, V1; auto|unfold V4, V2, V1; intuition discriminate|now apply u_plain|intros z; reflexivity]|].
  apply compiles_cons with (V' := V6) (m' := None); [apply (compiles_sample elaw exnom dZ cutsX "U1" dU (lu "U1")); auto; [exists "X"; unfold V5, V4, V2, V1; auto|unfold V5, V4, V2, V1; intuition discriminate|now apply u_plain|intros z; reflexivity]|].
  apply compiles_nil.
Qed.

(** X ~ uniform; if X <= 1/4: V ~ uniform; else: V ~ discrete.  The first leaf is divided. *)
Definition prog_l : cmdQ := Sequence [samp "X" dU; IfElse [(Some low4, samp "V" dU); (None, samp "V" dV)]].
Definition W2 (z : string) : Prop := V1 z \/ z = "V".
Lemma low4_at : forall w r, holds low4 (upd w "X" (FNum r)) <-> r <= 1/4.
Proof.
  intros w r. unfold holds. cbn. unfold truth. destruct (dec _) as [H|H]; (split; intros E; [|try reflexivity]).
  - destruct H as (_ & [H|H]); [|injection H as H]; cbn in H; unfold Q2R in H; cbn in H; lra.
  - symmetry in E. now apply one_zero in E.
  - exfalso. apply H. split; [exact Logic.I|]. cbn. destruct (Rle_lt_or_eq_dec _ _ E) as [L|L]; [left; cbn; unfold Q2R; cbn; lra|right; f_equal; unfold Q2R; cbn; lra].
Qed.
Lemma low4_even : forall P c, In (P, c) (firsts (map (fun b => (test (fst b), snd b)) [(Some low4, samp "V" dU); (None, samp "V" dV)])) -> even P (lu "X").
Proof.
  intros P c Hc _ w r Hp (eps & He & Al). cbn [firsts map fst snd test] in Hc. destruct Hc as [E|[E|[]]]; injection E as <- <-.
  - apply (proj1 (low4_at w r)) in Hp. apply (Al (r - eps/2)); [unfold Rabs; destruct (Rcase_abs _); lra|lra|]. apply (low4_at w (r - eps/2)). lra.
  - destruct Hp as (Hp & _). assert (Hr : ~ r <= 1/4) by (intros K; apply Hp; now apply (low4_at w r)). apply (Al (r + eps/2)); [unfold Rabs; destruct (Rcase_abs _); lra|lra|]. split; [|exact Logic.I]. intros K. apply (proj1 (low4_at w (r + eps/2))) in K. lra.
Qed.
Example C55_compiles_leaf_case : compiles elaw exnom dZ cutsX prog_l (fun _ => False) start None W2 None /\ exists s, runs_f 20 prog_l None = Ok (Some s).
Proof.
  split; [|apply okopt_ok; vm_compute; reflexivity]. assert (Nv : ~ V1 "V") by discriminate. assert (Z : exists z, V1 z) by (exists "X"; reflexivity).
  apply compiles_cons with (V' := V1) (m' := Some (lu "X")); [apply (compiles_first elaw exnom dZ cutsX "X" dU (lu "X")); auto; [now apply u_plain|intros z; unfold V1; tauto]|].
  apply compiles_cons with (V' := W2) (m' := None); [|apply compiles_nil].
  apply compiles_if with (es := [low4]); auto.
  - split; [discriminate|right; reflexivity].
  - intros e [<-|[]]. split; [split; [exact low4_plain|intros x [<-|[]]; split; reflexivity]|]. constructor; [exact Logic.I|constructor].
  - change (meaning elaw (samp "X" dU) start) with (den elaw (lu "X")). apply (else_covers (lu "X")); [exact (lu_wf "X")|cbn; auto].
  - intros P c Hc _. right. right. exists (lu "X"). split; [reflexivity|]. split.
    + split; [reflexivity|]. intros _. split; right; intros r E; injection E as <-; unfold cutsX; cbn; unfold Q2R; cbn; lra.
    + exact (low4_even P c Hc).
  - intros P c Hc _. apply (in_map snd) in Hc. rewrite firsts_snd in Hc. cbn [snd map] in Hc. destruct Hc as [<-|[<-|[]]].
    + apply (compiles_sample elaw exnom dZ cutsX "V" dU (lu "V")); auto; [now apply u_plain|intros z; reflexivity].
    + apply (compiles_sample elaw exnom dZ cutsX "V" dV (ld "V")); auto; [now apply d_plain|intros z; reflexivity].
Qed.

(** X ~ uniform; Z ~= X**2 + 3; if X <= 1/4: V ~ uniform; else: V ~ discrete *)
Definition zsq : tr QS := TPoly X [3;0;1]%Q.
Definition prog_t : cmdQ := Sequence [samp "X" dU; Transform "Z" zsq; IfElse [(Some low4, samp "V" dU); (None, samp "V" dV)]].
Definition T1 (z : string) : Prop := V1 z \/ z = "Z".
Definition T2 (z : string) : Prop := T1 z \/ z = "V".
Lemma lu_numbers : forall P : asg -> Prop, (forall w r, P (upd w "X" (FNum r))) -> sure (den elaw (lu "X")) P.
Proof.
  intros P H w. cbn [den lu leaf real_law elaw]. apply (law_null unif_law (fun v => ~ is_num v)).
  - apply (law_full unif_law). exact unif_num.
  - apply (bnd_comp _ _ (fun v => place (N:=QS) "X" (Spe.base_env "X") w v)). auto with bnd.
  - intros v Hv. apply Classical_Prop.NNPP in Hv. destruct Hv as (r & ->). apply ind_false. intros K. apply K. rewrite base_place. apply H.
Qed.
Example C55_compiles_transform_case : compiles elaw exnom dZ cutsX prog_t (fun _ => False) start None T2 None /\ two (base dZ T2) /\ exists s, runs_f 20 prog_t None = Ok (Some s).
Proof.
  split; [|split; [exists "X", "V"; unfold T2, T1, V1; repeat split; auto; discriminate|apply okopt_ok; vm_compute; reflexivity]].
  assert (Nv : ~ T1 "V") by (unfold T1, V1; intuition discriminate). assert (Z : exists z, T1 z) by (exists "X"; left; reflexivity).
  apply compiles_cons with (V' := V1) (m' := Some (lu "X")); [apply (compiles_first elaw exnom dZ cutsX "X" dU (lu "X")); auto; [now apply u_plain|intros z; unfold V1; tauto]|].
  change (meaning elaw (samp "X" dU) start) with (den elaw (lu "X")).
  apply compiles_cons with (V' := T1) (m' := Some (lu "X")).
  { apply compiles_transform with (x := "X"); try reflexivity; [discriminate|split; exact Logic.I|intros y [<-|[]]; reflexivity|discriminate| |]; apply lu_numbers; intros w r.
    - cbn. discriminate.
    - cbn. auto. }
  apply compiles_cons with (V' := T2) (m' := None); [|apply compiles_nil].
  apply compiles_if with (es := [low4]); auto.
  - split; [discriminate|right; reflexivity].
  - intros e [<-|[]]. split; [split; [exact low4_plain|intros x [<-|[]]; split; [left|]; reflexivity]|]. constructor; [exact Logic.I|constructor].
  - intros w. cbn [meaning]. rewrite (den_ext elaw (lu "X") _ (fun _ => 0)); [apply (law_const (den_kernel elaw (lu "X") (lu_wf "X") w))|]. intros a. apply ind_false. intros K. apply K. exists (None, samp "V" dV). split; [cbn; auto|exact Logic.I].
  - intros P c Hc _. right. right. exists (lu "X"). split; [reflexivity|]. split.
    + split; [reflexivity|]. intros _. split; right; intros r E; injection E as <-; unfold cutsX; cbn; unfold Q2R; cbn; lra.
    + exact (low4_even P c Hc).
  - intros P c Hc _. apply (in_map snd) in Hc. rewrite firsts_snd in Hc. cbn [snd map] in Hc. destruct Hc as [<-|[<-|[]]].
    + apply (compiles_sample elaw exnom dZ cutsX "V" dU (lu "V")); auto; [now apply u_plain|intros z; reflexivity].
    + apply (compiles_sample elaw exnom dZ cutsX "V" dV (ld "V")); auto; [now apply d_plain|intros z; reflexivity].
Qed.

(** X ~ 1/2 * uniform | 1/2 * uniform; condition (X <= 1/4); V ~ uniform *)
Definition half2 : spQ := SumSPE (S:=LQ) [(lu "X", 1#2); (lu "X", 1#2)]%Q.
Definition prog_m : cmdQ := Sequence [samp "X" (fun _ => Ok half2); Condition low4; samp "V" dU].
Lemma half2_plain : plain_leaf elaw exnom dZ cutsX "X" half2.
Proof.
  split; [split; [|split; [|intros z; cbn; intuition congruence]]|].
  - apply DensEx.two_wf; [exact (lu_wf "X")|exact (lu_wf "X")|cbn; tauto|reflexivity|reflexivity|unfold Q2R; cbn; lra].
  - pose proof (lu_typed no_env "X" eq_refl) as T. split; [repeat constructor; cbn [snd]; rewrite lqP' by reflexivity; unfold Q2R; cbn; lra|]. split; [exact T|]. split; [exact T|exact Logic.I].
  - split; [reflexivity|]. split; [right; eexists; split; [reflexivity|]; apply Forall_cons; [reflexivity|apply Forall_cons; [reflexivity|apply Forall_nil]]|]. cbn; repeat split; auto; discriminate.
Qed.
Example C55_compiles_mixture_case : compiles elaw exnom dZ cutsX prog_m (fun _ => False) start None W2 None /\ exists s, runs_f 20 prog_m None = Ok (Some s).
Proof.
  split; [|apply okopt_ok; vm_compute; reflexivity]. assert (Nv : ~ V1 "V") by discriminate.
  assert (Z : exists z, V1 z) by (exists "X"; reflexivity).
  apply compiles_cons with (V' := V1) (m' := Some half2); [apply (compiles_first elaw exnom dZ cutsX "X" (fun _ => Ok half2) half2); auto; [exact half2_plain|intros z; unfold V1; tauto]|].
  apply compiles_cons with (V' := V1) (m' := None).
  { apply compiles_condition; auto; [split; [exact low4_plain|intros x [<-|[]]; split; reflexivity]|right; left; reflexivity|left; exact Logic.I|].
    exists w0. change (den elaw half2 (ind (holds low4)) w0 <> 0).
    assert (K : den elaw (lu "X") (ind (holds low4)) w0 = 1/4).
    { transitivity (unif (ind (at_most (Fin (1/4))))); [|rewrite unif_cdf; cbn [clamp]; rewrite Rmax_right, Rmin_right by lra; reflexivity]. cbn [den lu leaf real_law elaw]. apply (law_as unif_law (fun v => ~ is_num v)).
      - apply (law_full unif_law). exact unif_num.
      - apply (bnd_comp _ _ (fun v => place (N:=QS) "X" (Spe.base_env "X") w0 v)). auto with bnd.
      - auto with bnd.
      - intros v Hv. apply Classical_Prop.NNPP in Hv. destruct Hv as (r & ->). apply ind_eq. rewrite base_place, low4_at. split; [intros H; exists r; split; auto; now apply ele_fin|intros (q & E & H); injection E as <-; now apply ele_fin]. }
    change (den elaw half2 (ind (holds low4)) w0) with (toP (l0:=LQ) (1#2)%Q * den elaw (lu "X") (ind (holds low4)) w0 + (toP (l0:=LQ) (1#2)%Q * den elaw (lu "X") (ind (holds low4)) w0 + 0)). rewrite K. rewrite lqP' by reflexivity. unfold Q2R; cbn. lra. }
  apply compiles_cons with (V' := W2) (m' := None); [apply (compiles_sample elaw exnom dZ cutsX "V" dU (lu "V")); auto; [now apply u_plain|intros z; reflexivity]|].
  apply compiles_nil.
Qed.

(** A program that has a meaning, but whose compilation fails: X takes the values 0, 2 and 3, and
    the cases are {2} and {0, 3}. *)
Definition vs_gap : list (sval (N:=QS)) := [VReal (N:=QS) 2%Q; VSet (fr [qn 0; qn 3])].
Theorem C55_compiles_refuted : exists (c : cmdQ) W, ProgSpec.fits elaw exnom c (fun _ => False) start W /\
  forall fuel, interpret ioQ so_id po fuel exhash ids_of false c None = Raise AssertionError.
Proof.
  exists (Sequence [samp "X" dV; Switch "X" vs_gap (fun _ _ => Skip)]), V1. split; [|intros fuel; reflexivity].
  apply fits_cons with (V' := V1); [apply (fits_sample elaw exnom "X" dV (ld "X")); [reflexivity|now apply sample_d|unfold V1; tauto]|].
  apply fits_cons with (V' := V1); [|apply fits_nil]. apply fits_switch; [reflexivity| | |].
  - apply Forall_cons; [reflexivity|]. apply Forall_cons; [|apply Forall_nil]. split; [split; [|discriminate]|split; [discriminate|exact Logic.I]]. constructor; [|repeat constructor; intros []]. intros [E|[]]. injection E as E. unfold Q2R in E; cbn in E. lra.
  - change (meaning elaw (samp "X" dV) start) with (den elaw (ld "X")). intros w. cbn [den ld leaf]. cbn [real_law elaw dl map sumR fold_right fst snd].
    rewrite !ind_false; [ring| | |]; intros K; apply K; [exists (VSet (fr [qn 0; qn 3]))|exists (VReal (N:=QS) 2%Q)|exists (VSet (fr [qn 0; qn 3]))]; (split; [cbn; auto|]); cbn.
    + exists (qn 3). split; auto. cbn. f_equal. unfold Q2R; cbn. lra.
    + f_equal. unfold Q2R; cbn. lra.
    + exists (qn 0). split; auto. cbn. f_equal. unfold Q2R; cbn. lra.
  - intros P c Hc _. apply (in_map snd) in Hc. rewrite firsts_snd in Hc. cbn [snd] in Hc. destruct Hc as [<-|[<-|[]]]; apply fits_skip.
Qed.

Definition all_compile_properties := (C55_compiles_transform_case, @C55_compiles_partial, @C55_answers_partial, @C55_compiles_refuted).
Print Assumptions all_compile_properties.
