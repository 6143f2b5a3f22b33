(** Cases and refutations for C57. *)
From Coq Require Import List Bool String Reals Lra Lia ZArith QArith Qabs Qreals.
From Verif Require Import Base Num Sets SetSpec SetIv SetProofs SetOr SetOps SetAlg SetBuilt
  Poly Trans TransSpec TransFacts PolyProofs InvProofs InvMain EvProofs ArithProofs PolyEx
  Dnf DnfSpec DnfProofs DnfUnion Logs Spe SpeSpec SpeFacts SpeRect LeafProofs LeafEvents LeafCond SpeCons LeafGiven MemoProofs PropTrans NormSorts LogprobProofs LogprobTop SpeEq SimplifyProofs CondTypes CondProofs CondTop PropSpe Uniform Instances SpeEx
  SpeOps OpsProofs BuildProofs TransformProofs PropCons ConsEx Same ProgEx DensSpec DensProofs ConstrainProofs DensLimit DensPoint PropDens DensEx TotalSpec PropTotal TotalEx SolveSpec InvTotal AskSpec PropAsk LinEx.
Import ListNotations.
Local Open Scope R_scope.
Local Open Scope string_scope.

Definition pl := po_lin QS.
Lemma toR_Q : forall q : Q, toR (n:=QS) q = Q2R q. Proof. reflexivity. Qed.
Lemma lin_q : forall a b : Q, Q2R b <> 0 -> linear (N:=QS) pl a b.
Proof. intros a b H. apply lin_linear. exact H. Qed.
Lemma cmp_iv : forall x (i : interval QS), exnom x = false -> hasinf (PB (BInt i)) = false -> comparison exnom any any (EBasic KInt (TId x) (PB (BInt i))).
Proof. intros x i En H. exists KInt, x, (PB (BInt i)). split; [reflexivity|]. rewrite En. split; [discriminate|]. split; [exact Logic.I|]. split; [exact H|]. split; [intros j _ r _; exact Logic.I|]. intros vs y r _ _ _. left. exact Logic.I. Qed.

(** (Z < 2 and Y << {'a'}) or Z >= 5, asked of sx of SpeEx.v, where Z = 2*X + 1: the leaves have
    closed supports, and Z is a one-to-one function *)
Definition ZX : tr QS := TPoly (N:=QS) (TId "X") [1; 2]%Q.
Definition zge5 : tr QS := EBasic KInt (TId "Z") (iv (qn 5) PInf false true).
Definition zev : tr QS := EOr [EAnd [zlt; yina]; zge5].
Lemma direct_zev : direct exnom any any zev.
Proof.
  split.
  - apply (EventOr_ok [EAnd [zlt; yina]; zge5]); [|reflexivity]. constructor; [|constructor; [apply (good_int (TId "Z") (qn 5) PInf false true); exact Logic.I || reflexivity|constructor]].
    apply (EventAnd_ok [zlt; yina]); [|reflexivity]. constructor; [apply (good_int (TId "Z") NInf (qn 2) true true); exact Logic.I || reflexivity|constructor; [exact gev_yina|constructor]].
  - repeat (apply Forall_cons || apply Forall_nil); try exact cmp_ya; now apply cmp_iv.
Qed.
Lemma z_through : through pl any any exenv "Z" ZX.
Proof.
  assert (C : forall k, chain pl (N:=QS) k ZX) by (intros k; cbn [chain ZX]; split; [apply lin_q; unfold Q2R; cbn; lra|exact Logic.I]).
  split; [apply (means_step exenv "Z" Z2 "X" (TId "X")); [reflexivity|reflexivity|reflexivity|]; apply means_self; reflexivity|]. split; [apply C|left; apply C].
Qed.
Definition zasked (x : string) : Prop := In x (symbols zev).
Lemma zasked_env : forall z, zasked z -> In z (map fst exenv) -> z = "Z".
Proof. cbn. intuition; subst; try discriminate; auto. Qed.
Lemma sx_prepared : prepared pl exnom any any zasked true sx.
Proof.
  assert (L : lone zasked exenv) by (intros y z Ay Az Iy Iz; rewrite (zasked_env y Ay Iy), (zasked_env z Az Iz); reflexivity).
  assert (R : forall z, zasked z -> In z (map fst exenv) -> exnom z = false /\ exists t, through pl any any exenv z t /\ narrow t) by (intros z Az Iz; rewrite (zasked_env z Az Iz); split; [reflexivity|]; exists ZX; split; [exact z_through|exact Logic.I]).
  cbn [prepared sx p1 p2 p3 ux dx ax y1 y2 All fst]. repeat split; try exact L; try reflexivity; try (now apply R); try (intros z Az Iz; destruct (R z Az Iz) as (_ & t & Th & Nt); right; exists t; auto); try (right; destruct (R z H H0) as (_ & t & Th & Nt); exists t; auto).
  intros y [<-|[<-|[]]]; reflexivity.
Qed.
Example C57_answers_case : wf_spe elaw sx /\ distinct (ids_of sx) sx /\ prepared pl exnom any any (fun x => In x (symbols zev)) true sx /\ direct exnom any any zev /\ (forall x, In x (symbols zev) -> vars sx x) /\ leaf_form sx zev /\
  ~ own sx "Z" /\ In "Z" (symbols zev) /\ fresh (logprob ioQ pl 9 (ids_of sx) sx zev) = Ok (1#2)%Q.
Proof.
  split; [exact sx_wf|]. split; [apply ids_distinct|]. split; [exact sx_prepared|]. split; [exact direct_zev|]. split; [cbn; intuition|]. split; [discriminate|]. split; [cbn; intuition discriminate|]. split; [cbn; auto|]. reflexivity.
Qed.

(** W = X - 1/2 and Z = |W|, two derived variables of a leaf with the open support (0,2) *)
Definition WX : tr QS := TPoly (N:=QS) (TId "X") [-1#2; 1]%Q.
Definition tentenv : tenv (N:=QS) := [("X", X); ("W", WX); ("Z", TAbs (TId "W"))].
Definition ut : spQ := RealLeaf (D:=DQ) false "X" DUnif i02 false tentenv.
Lemma tent_lookup : forall x t, lookup x tentenv = Some t -> (x = "X" /\ t = X) \/ (x = "W" /\ t = WX) \/ (x = "Z" /\ t = TAbs (TId "W")).
Proof.
  intros x t H. unfold tentenv, lookup in H. destruct (String.eqb x "X") eqn:E1; [apply String.eqb_eq in E1; injection H as <-; auto|]. destruct (String.eqb x "W") eqn:E2; [apply String.eqb_eq in E2; injection H as <-; auto|]. destruct (String.eqb x "Z") eqn:E3; [apply String.eqb_eq in E3; injection H as <-; auto|discriminate].
Qed.
Lemma tent_env_ok : env_ok "X" tentenv.
Proof.
  split.
  - apply (built_ext "X" [("X", TId "X"); ("W", WX)] "Z" (TAbs (TId "W"))); [apply (built_ext "X" [("X", TId "X")] "W" WX); [constructor| |]| |].
    + intros [H|[]]. discriminate.
    + intros s [<-|[]]. now left.
    + intros [H|[H|[]]]; discriminate.
    + intros s [<-|[]]. right. now left.
  - intros x t H. destruct (tent_lookup x t H) as [(-> & ->)|[(-> & ->)|(-> & ->)]]; [split; exact Logic.I|split; [split|]; exact Logic.I|repeat split].
Qed.
Lemma tent_fine : forall w v, is_num v -> env_fine tentenv (place "X" tentenv w v).
Proof.
  intros w v (r & ->). split; intros x t H; destruct (tent_lookup x t H) as [(-> & ->)|[(-> & ->)|(-> & ->)]]; reflexivity || exact Logic.I.
Qed.
Lemma tent_wf : forall supp, wf_iv supp -> elaw DUnif (ind (in_iv supp)) = 1 -> wf_leaf elaw (RealLeaf (D:=DQ) false "X" DUnif supp false tentenv).
Proof.
  intros supp W Hc. refine (conj W (conj _ (conj unif_dist (conj Hc (conj tent_env_ok _))))); [discriminate|]. intros w. cbn [den]. pose proof (law_full (d_law _ _ _ unif_dist) _ (d_num _ _ _ unif_dist)) as Z.
  assert (K : forall v, ~ ~ is_num v -> ind (fun w => ~ env_fine tentenv w) (place "X" tentenv w v) = 0) by (intros v Hv; apply ind_false; intros K; apply K, tent_fine; destruct (dec (is_num v)); tauto).
  unfold real_law. apply (law_null (d_law _ _ _ unif_dist) _ _ Z); auto with bnd.
Qed.
Lemma ut_wf : wf_spe elaw ut.
Proof. apply tent_wf; [now apply iv_wf|]. apply unif_supp. intros r H. apply in_iv_num. cbn. unfold Q2R; cbn. lra. Qed.
Definition TX : tr QS := TAbs WX.
Lemma z_tent : means tentenv "Z" TX.
Proof.
  apply (means_step tentenv "Z" (TAbs (TId "W")) "W" WX); [reflexivity|reflexivity|reflexivity|].
  apply (means_step tentenv "W" WX "X" (TId "X")); [reflexivity|reflexivity|reflexivity|]. apply means_self; reflexivity.
Qed.
Lemma tent_through : through pl any any tentenv "Z" TX.
Proof.
  assert (C : forall k, k <> Ext -> chain pl (N:=QS) k TX) by (intros k Hk; cbn [chain TX WX]; split; [exact Hk|]; split; [apply lin_q; unfold Q2R; cbn; lra|exact Logic.I]).
  split; [exact z_tent|]. split; [apply C; discriminate|left; apply C; discriminate].
Qed.
Definition zle8 : tr QS := EBasic KInt (TId "Z") (iv NInf (Fin (1#8)%Q) true false).
Definition zgt8 : tr QS := EBasic KInt (TId "Z") (iv (Fin (3#8)%Q) PInf true true).
Definition tev2 : tr QS := EOr [zle8; zgt8].
Lemma direct_tev2 : direct exnom any any tev2.
Proof.
  split.
  - apply (EventOr_ok [zle8; zgt8]); [|reflexivity]. constructor; [apply (good_int (TId "Z") NInf (Fin (1#8)%Q) true false); exact Logic.I || reflexivity|constructor; [apply (good_int (TId "Z") (Fin (3#8)%Q) PInf true true); exact Logic.I || reflexivity|constructor]].
  - repeat (apply Forall_cons || apply Forall_nil); now apply cmp_iv.
Qed.
Lemma ut_prepared : forall (e : tr QS) many, (forall x, In x (symbols e) -> x = "Z") -> prepared pl exnom any any (fun x => In x (symbols e)) many ut.
Proof.
  intros e many H. split; [intros y z Ay Az _ _; rewrite (H y Ay), (H z Az); reflexivity|]. intros z Az _. rewrite (H z Az). split; [reflexivity|]. right. exists TX. split; [exact tent_through|]. left. split; reflexivity.
Qed.
Example C57_leaf_case : wf_spe elaw ut /\ distinct (ids_of ut) ut /\ prepared pl exnom any any (fun x => In x (symbols tev2)) true ut /\ direct exnom any any tev2 /\ (forall x, In x (symbols tev2) -> vars ut x) /\ leaf_form ut tev2 /\
  exists q, fresh (logprob ioQ pl 9 (ids_of ut) ut tev2) = Ok q /\ (q == 1#2)%Q.
Proof.
  split; [exact ut_wf|]. split; [apply ids_distinct|]. split; [apply ut_prepared; cbn; intuition|]. split; [exact direct_tev2|]. split; [cbn; intuition|]. split; [intros _; right; exists [zle8; zgt8]; split; [reflexivity|repeat constructor]|].
  eexists. split; reflexivity.
Qed.
(** Z >= 1/2, asked of the same leaf with the closed support [0,1], is an AssertionError: the
    solution is X <= 0 or X >= 1, and its meet with the support is the two points 0 and 1
    (src/sets.py:279-305, 322-333).  The comparison is a single one, and its probability is 0. *)
Definition i01 : interval QS := mkIv (qn 0) (qn 1) false false.
Definition utc : spQ := RealLeaf (D:=DQ) false "X" DUnif i01 false tentenv.
Lemma utc_wf : wf_spe elaw utc.
Proof. apply tent_wf; [now apply iv_wf|]. apply unif_supp. intros r H. apply in_iv_num. cbn. unfold Q2R; cbn. lra. Qed.
Definition zge2 : tr QS := EBasic KInt (TId "Z") (iv (Fin (1#2)%Q) PInf false true).
Lemma direct_zge2 : direct exnom any any zge2.
Proof. split; [apply (good_int (TId "Z") (Fin (1#2)%Q) PInf false true); exact Logic.I || reflexivity|]. repeat (apply Forall_cons || apply Forall_nil); now apply cmp_iv. Qed.
Theorem C57_closed_support_refuted : exists (s : spQ) e x d i t, s = RealLeaf (D:=DQ) false x d i false tentenv /\ wf_spe elaw s /\ distinct (ids_of s) s /\ through pl any any tentenv "Z" t /\ direct exnom any any e /\ conjunctive e /\ (forall x, In x (symbols e) -> x = "Z" /\ vars s x) /\ leaf_form s e /\
  fresh (logprob ioQ pl 9 (ids_of s) s e) = Raise AssertionError.
Proof.
  exists utc, zge2, "X", DUnif, i01, TX. split; [reflexivity|]. split; [exact utc_wf|]. split; [apply ids_distinct|]. split; [exact tent_through|]. split; [exact direct_zge2|]. split; [exact Logic.I|]. split; [cbn; intuition|]. split; [|reflexivity].
  intros _. left. reflexivity.
Qed.
(** 2 <= Z and Z < 5/2, asked of a sum of leaves with closed supports, where Z = 2*X + 1 *)
Definition zge : tr QS := EBasic KInt (TId "Z") (iv (qn 2) PInf false true).
Definition zlt5 : tr QS := EBasic KInt (TId "Z") (iv NInf (Fin (5#2)%Q) true true).
Definition zand : tr QS := EAnd [zge; zlt5].
Definition sz : spQ := SumSPE (S:=LQ) [(ux, 1#2); (dx, 1#2)]%Q.
Lemma sz_wf : wf_spe elaw sz.
Proof. apply two_wf; [exact ux_wf|exact dx_wf|cbn; tauto|reflexivity|reflexivity|unfold Q2R; cbn; lra]. Qed.
Lemma direct_zand : direct exnom any any zand.
Proof.
  split.
  - apply (EventAnd_ok [zge; zlt5]); [|reflexivity]. constructor; [apply (good_int (TId "Z") (qn 2) PInf false true); exact Logic.I || reflexivity|constructor; [apply (good_int (TId "Z") NInf (Fin (5#2)%Q) true true); exact Logic.I || reflexivity|constructor]].
  - repeat (apply Forall_cons || apply Forall_nil); now apply cmp_iv.
Qed.
Lemma sz_prepared : prepared pl exnom any any (fun x => In x (symbols zand)) false sz.
Proof.
  assert (H : forall x, In x (symbols zand) -> x = "Z") by (cbn; intuition).
  assert (L : lone (fun x => In x (symbols zand)) exenv) by (intros y z Ay Az _ _; rewrite (H y Ay), (H z Az); reflexivity).
  assert (R : forall z, In z (symbols zand) -> exists t, through pl any any exenv z t /\ narrow t) by (intros z Az; rewrite (H z Az); exists ZX; split; [exact z_through|exact Logic.I]).
  cbn [prepared sz ux dx All fst]. split; [|split; [|exact Logic.I]]; (split; [exact L|]; intros z Az _; split; [now rewrite (H z Az)|]; destruct (R z Az) as (t & Th & Nt); right; exists t; auto).
Qed.
Example C57_conjunctions_case : wf_spe elaw sz /\ distinct (ids_of sz) sz /\ prepared pl exnom any any (fun x => In x (symbols zand)) false sz /\ direct exnom any any zand /\ conjunctive zand /\ (forall x, In x (symbols zand) -> vars sz x) /\ leaf_form sz zand /\
  exists q, fresh (logprob ioQ pl 9 (ids_of sz) sz zand) = Ok q /\ (q == 1#8)%Q.
Proof.
  split; [exact sz_wf|]. split; [apply ids_distinct|]. split; [exact sz_prepared|]. split; [exact direct_zand|]. split; [cbn; auto|]. split; [cbn; intuition|]. split; [discriminate|]. eexists. split; reflexivity.
Qed.
(** after other queries through the same memo table *)
Example C57_after_case : closed (ids_of sx) (within sx) /\ Forall (PropSpe.fine elaw exnom exenvof (within sx)) [PropSpe.QLogprob sx exev; PropSpe.QCondition sx exev2] /\ within sx sx.
Proof.
  split; [apply within_closed, ids_distinct|]. split; [|constructor]. repeat (apply Forall_cons || apply Forall_nil); [exact (conj (within_self sx) (conj sx_wf (conj (typed_atoms exnom exenvof sx sx_typed) (conditionable_askable elaw exnom sx exev cond_exev))))|exact (conj (within_self sx) (conj sx_wf (conj sx_typed cond_exev2)))].
Qed.

Definition all_ask_properties := (@C57_answers_partial, @C57_conjunctions_partial, @C57_after_partial, @C57_closed_support_refuted).
Print Assumptions all_ask_properties.
