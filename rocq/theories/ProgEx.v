(** Cases and refutations for C33-C35. *)
From Coq Require Import List Bool String Reals Lra Lia ZArith QArith Qabs Qreals FunctionalExtensionality.
From Verif Require Import Base Num Sets SetSpec SetIv SetProofs SetOr SetOps SetAlg SetBuilt
  Poly Trans TransSpec TransFacts PolyProofs InvProofs InvMain EvProofs ArithProofs PolyEx
  Dnf DnfSpec DnfProofs DnfUnion Logs Spe SpeSpec SpeFacts SpeRect LeafProofs LeafEvents LeafCond SpeCons LeafGiven MemoProofs PropTrans NormSorts LogprobProofs LogprobTop SpeEq SimplifyProofs CondTypes CondProofs CondTop PropSpe Uniform Instances SpeEx
  SpeOps OpsProofs BuildProofs TransformProofs PropCons ConsEx Same Prog ProgSpec ProgEvents ProgProofs PropProg.
Import ListNotations.
Local Open Scope R_scope.
Local Open Scope string_scope.

Notation cmdQ := (command (N:=QS) (D:=DQ)).
Definition run : cmdQ -> option spQ -> res (option spQ) := interpret ioQ so_id po 9 exhash ids_of true.
Definition okopt {A} (r : res (option A)) : bool := match r with Ok (Some _) => true | _ => false end.
Lemma okopt_ok : forall A (r : res (option A)), okopt r = true -> exists a, r = Ok (Some a).
Proof. intros A [[a|]|] H; try discriminate. eauto. Qed.

(** ** Leaves with their own variable only *)
Definition leaf (x : string) (disc : bool) (d : edist) (i : interval QS) : spQ := RealLeaf (D:=DQ) disc x d i false (Spe.base_env x).
Lemma base_real_wf : forall x disc d supp, wf_iv supp -> (disc = true -> disc_supp (D:=DQ) elaw d supp) -> dist_ok (D:=DQ) elaw disc d -> elaw d (ind (in_iv supp)) = 1 -> wf_leaf elaw (leaf x disc d supp).
Proof.
  intros x disc d supp W Ds Dk Hc.
  assert (L : forall y t, lookup y (Spe.base_env (N:=QS) x) = Some t -> y = x /\ t = TId x) by (intros y t H; cbn in H; destruct (String.eqb_spec y x) as [->|]; [injection H as <-; auto|discriminate]).
  refine (conj W (conj Ds (conj Dk (conj Hc (conj (conj (built_base _) _) _))))).
  - intros y t H. destruct (L y t H) as (-> & ->). split; exact Logic.I.
  - intros w. cbn [den leaf]. apply (law_null (d_law _ _ _ Dk) _ _ (law_full (d_law _ _ _ Dk) _ (d_num _ _ _ Dk))); [auto with bnd|]. intros v Hv. apply ind_false. intros K. apply K. split; intros y t H; destruct (L y t H) as (-> & ->); [|exact Logic.I].
    unfold place. cbn. reflexivity.
Qed.
Definition lu (x : string) : spQ := leaf x false DUnif i01.
Definition ld (x : string) : spQ := leaf x true (DFin dl) i03.
Lemma lu_wf : forall x, wf_leaf elaw (lu x).
Proof. intros x. apply base_real_wf; [now apply iv_wf|discriminate|exact unif_dist|]. apply unif_supp. intros r H. apply in_iv_num. cbn. unfold Q2R; cbn. lra. Qed.
Lemma ld_wf : forall x, wf_leaf elaw (ld x).
Proof.
  intros x. apply base_real_wf; [now apply iv_wf| |apply fin_dist, dl_ok|].
  - intros _. apply disc_01; [reflexivity|exists 0%Z; split; [apply Q2R_int|lia]|exists 3%Z; apply Q2R_int].
  - cbn [elaw dl map sumR fold_right fst snd]. rewrite !ind_true; [unfold Q2R; cbn; lra| | |]; apply in_iv_num; cbn; unfold Q2R; cbn; lra.
Qed.
Definition dV : distribution := real_dist (D:=DQ) true (DFin dl) i03.
Definition dU : distribution := real_dist (D:=DQ) false DUnif i01.
Definition dY : distribution := choice (N:=QS) (D:=DQ) [("a", 1#4); ("b", 3#4)]%Q.
Lemma lu_typed : forall envof x, exnom x = false -> typed exnom envof (lu x).
Proof. intros envof x H. cbn. intuition (subst; exact H). Qed.
Lemma ld_typed : forall envof x, exnom x = false -> typed exnom envof (ld x).
Proof. intros envof x H. cbn. intuition (subst; exact H). Qed.
Lemma sample_u : forall x, exnom x = false -> sample_ok elaw exnom x (lu x).
Proof. intros x H. split; [exact (lu_wf x)|]. split; [now apply lu_typed|]. intros z. cbn. intuition. Qed.
Lemma sample_d : forall x, exnom x = false -> sample_ok elaw exnom x (ld x).
Proof. intros x H. split; [exact (ld_wf x)|]. split; [now apply ld_typed|]. intros z. cbn. intuition. Qed.
Definition samp (x : string) (d : distribution (D:=DQ)) : cmdQ := Sample x d.

(** ** Variables have values of their sorts *)
Lemma sorted_vars : forall envof (s : spQ), wf_spe elaw s -> typed exnom envof s -> surely elaw s (fun a => forall x, vars s x -> sort1 exnom x (a x)).
Proof.
  intros envof s W T w. apply (law_null_sub (den_kernel elaw s W w) (bad exnom (vars s))); [apply (typed_sorted elaw exnom envof s W T)|].
  intros a H. destruct (dec (bad exnom (vars s) a)) as [|K]; auto. destruct H. intros x Hx. destruct (dec (sort1 exnom x (a x))); auto. destruct K. exists x; auto.
Qed.
Lemma sort_numv : forall x v, exnom x = false -> sort1 exnom x v -> exists r, v = FNum r.
Proof. intros x v H K. unfold sort1 in K. rewrite H in K. destruct v; [eauto|discriminate K]. Qed.
Lemma sort_strv : forall x v, exnom x = true -> sort1 exnom x v -> exists r, v = FStr r.
Proof. intros x v H K. unfold sort1 in K. rewrite H in K. destruct v; [discriminate K|eauto]. Qed.
Lemma surely_imp : forall (s : spQ) (P Q : asg -> Prop), wf_spe elaw s -> surely elaw s P -> (forall a, P a -> Q a) -> surely elaw s Q.
Proof. intros s P Q W H K w. apply (law_null_sub (den_kernel elaw s W w) (fun a => ~ P a)); [apply H|]. intros a Hn Hp. auto. Qed.

(** ** C33: a mixture with an atom; a condition over several variables *)
Definition if_e : cmdQ := IfElse [(Some exev2, samp "V" dU); (Some yina, samp "V" dV); (None, samp "V" dV)].
Lemma guard_exev2 : guard exnom (vars sx) exev2.
Proof.
  split; [split; [exact gev_exev2|]|].
  - split; [repeat (apply Forall_cons; [apply uni_lit|]); apply Forall_nil|]. split; [exact sorts_exev2|]. intros x Hx. apply sx_vars. cbn in Hx. intuition congruence.
  - repeat (apply Forall_cons; [exact Logic.I|]); apply Forall_nil.
Qed.
Lemma guard_yina : forall s : spQ, vars s "Y" -> guard exnom (vars s) yina.
Proof.
  intros s V. split; [split; [exact gev_yina|]|].
  - split; [apply Forall_cons; [apply uni_lit|apply Forall_nil]|]. split; [apply Forall_cons; [exact sort_yina|apply Forall_nil]|]. intros x [<-|[]]. exact V.
  - apply Forall_cons; [exact Logic.I|apply Forall_nil].
Qed.
Lemma ok_yina : forall envof (s : spQ), wf_spe elaw s -> typed exnom envof s -> vars s "Y" -> condition_ok elaw exnom s yina.
Proof.
  intros envof s W T V. split; [now apply guard_yina|]. split; [apply surely_all; auto; intros w; apply plain_regular; cbn; intuition discriminate|].
  apply (surely_imp s _ _ W (sorted_vars envof s W T)). intros a Ha. destruct (sort_strv "Y" (a "Y") eq_refl (Ha "Y" V)) as (y & Ey). cbn [teval yina]. rewrite Ey. unfold truth. destruct (dec _); discriminate.
Qed.
Lemma ok_exev2 : condition_ok elaw exnom sx exev2.
Proof.
  split; [exact guard_exev2|]. split; [apply surely_all; [exact sx_wf|]; intros w; apply plain_regular, plain_exev|].
  apply (surely_imp sx _ _ sx_wf sx_sorted). intros a ((x & Ex) & (z & Ez) & (y & Ey)). cbn [teval exev2 zlt3 xge yina X map]. rewrite Ex, Ez, Ey. apply kor_def. intros o [<-|[<-|[]]]; [|apply truth_def]. apply kand_def. intros o [<-|[<-|[]]]; apply truth_def.
Qed.
Lemma else_covers : forall (s : spQ) (bs : list (option (tr QS) * cmdQ)), wf_spe elaw s -> In None (map fst bs) -> surely elaw s (fun a => exists b, In b bs /\ test (fst b) a).
Proof. intros s bs W H. apply surely_all; auto. intros w. apply in_map_iff in H. destruct H as (b & Eb & Hb). exists b. split; auto. rewrite Eb. exact Logic.I. Qed.
Lemma sample_typed : forall envof (l s t : spQ), wf_spe elaw s -> wf_spe elaw l -> typed exnom envof s -> typed exnom envof l -> spe_and s l = Ok t -> wf_spe elaw t /\ typed exnom envof t.
Proof.
  intros envof l s t Ws Wl Ts Tl H. destruct (mk_Product_ok elaw [s; l] t) as (Wt & _); auto. split; auto. apply (mk_Product_every (part_ok exnom envof) (part_prod exnom envof) [s; l]); auto.
Qed.
Definition t_if : spQ := match run if_e (Some sx) with Ok (Some t) => t | _ => sx end.
Example C33_mixture_case : wf_spe elaw sx /\ typed exnom exenvof sx /\ (forall s, distinct (ids_of s) s) /\
  (forall e, In (Some e) (map fst [(Some exev2, samp "V" dU); (Some yina, samp "V" dV); (None, samp "V" dV)]) -> condition_ok elaw exnom sx e) /\
  surely elaw sx (fun a => exists b, In b [(Some exev2, samp "V" dU); (Some yina, samp "V" dV); (None, samp "V" dV)] /\ test (fst b) a) /\
  run if_e (Some sx) = Ok (Some t_if) /\
  forall kids, runs_of ioQ so_id po 9 elaw exhash ids_of true exnom exenvof sx (cases_of [(Some exev2, samp "V" dU); (Some yina, samp "V" dV); (None, samp "V" dV)]) kids ->
    forall q c d, In (q, c, d) kids -> wf_spe elaw d /\ typed exnom exenvof d.
Proof.
  split; [exact sx_wf|]. split; [exact sx_typed|]. split; [exact ids_distinct|]. split.
  { intros e [K|[K|[K|[]]]]; [injection K as <-; exact ok_exev2|injection K as <-|discriminate K]. apply (ok_yina exenvof sx sx_wf sx_typed). apply sx_vars. auto. }
  split; [apply else_covers; [exact sx_wf|cbn; auto]|]. split.
  { assert (K : okopt (run if_e (Some sx)) = true) by (vm_compute; reflexivity). destruct (okopt_ok _ _ K) as (t & Et). unfold t_if. rewrite Et. reflexivity. }
  intros kids (K1 & K2) q c d Hk. destruct (K2 q c d Hk) as ((Wc & Tc & _) & E).
  assert (Hq : In (snd q) [samp "V" dU; samp "V" dV; samp "V" dV]).
  { assert (Iq : In q (firsts (cases_of [(Some exev2, samp "V" dU); (Some yina, samp "V" dV); (None, samp "V" dV)]))).
    { apply (in_map (fun k => fst (fst k))) in Hk. cbn [fst] in Hk. rewrite K1 in Hk. apply filter_In in Hk. apply Hk. }
    apply (in_map snd) in Iq. rewrite firsts_snd in Iq. exact Iq. }
  destruct Hq as [Eq|[Eq|[Eq|[]]]]; rewrite <- Eq in E; cbn [interpret samp] in E;
    [change (dU "V") with (@Ok spQ (lu "V")) in E|change (dV "V") with (@Ok spQ (ld "V")) in E|change (dV "V") with (@Ok spQ (ld "V")) in E]; cbn [bind] in E; inv_bind E; injection E as ->;
    (eapply (sample_typed exenvof); [exact Wc| |exact Tc| |eassumption]); try exact (lu_wf "V"); try exact (ld_wf "V"); (now apply lu_typed) || (now apply ld_typed).
Qed.
(** the comparison with 1 is exact for the numbers of the examples *)
Lemma close_exact : forall a : lg LQ, lclose a lzero = true -> Rabs (toP a - 1) <= 0.
Proof.
  intros a H. change (Qeq_bool (Qabs a) (Qabs 1) = true) in H. apply Qeq_bool_eq in H. assert (E : @toP LQ a = 1); [|rewrite E, Rminus_diag_eq, Rabs_R0 by reflexivity; lra].
  change (Q2R (Qabs a) = 1). rewrite (Qeq_eqR _ _ H). unfold Q2R; cbn; lra.
Qed.
Example C33_exhaustive_case : (forall a : lg LQ, lclose a lzero = true -> Rabs (toP a - 1) <= 0) /\ run if_e (Some sx) = Ok (Some t_if).
Proof. split; [exact close_exact|]. apply C33_mixture_case. Qed.

(** ** Programs: X ~ uniform, Y ~ choice *)
Lemma p1_typed : typed exnom no_env p1.
Proof. cbn. repeat split; try (intros z Hz; apply env_num; exact Hz). Qed.
Lemma p1_vars : forall x, vars p1 x <-> x = "X" \/ x = "Z" \/ x = "Y".
Proof. intros x. cbn. intuition congruence. Qed.
Lemma guard_xhalf : forall V : string -> Prop, V "X" -> guard exnom V xhalf.
Proof.
  intros V Vx. split; [split; [exact gev_xhalf|]|].
  - split; [apply Forall_cons; [apply uni_lit|apply Forall_nil]|]. split; [apply Forall_cons; [apply sort_num; [discriminate|intros x [<-|[]]; reflexivity]|apply Forall_nil]|]. intros x [<-|[]]. exact Vx.
  - apply Forall_cons; [exact Logic.I|apply Forall_nil].
Qed.
Lemma guard_yina' : forall V : string -> Prop, V "Y" -> guard exnom V yina.
Proof.
  intros V Vy. split; [split; [exact gev_yina|]|].
  - split; [apply Forall_cons; [apply uni_lit|apply Forall_nil]|]. split; [apply Forall_cons; [exact sort_yina|apply Forall_nil]|]. intros x [<-|[]]. exact Vy.
  - apply Forall_cons; [exact Logic.I|apply Forall_nil].
Qed.
Definition bs_p : list (option (tr QS) * cmdQ) := [(Some xhalf, samp "V" dU); (Some yina, samp "V" dV); (None, Sequence [samp "V" dV; Skip])].
(** the branches fit any distribution of X and Y with the right sorts *)
Lemma bs_fits : forall (s : spQ) (V : string -> Prop), wf_spe elaw s -> typed exnom no_env s -> (forall x, vars s x <-> V x) -> V "X" -> V "Y" ->
  fits elaw exnom (IfElse bs_p) V (den elaw s) (fun z => V z \/ z = "V").
Proof.
  intros s V W T E Vx Vy. pose proof (sorted_vars no_env s W T) as So.
  apply fits_if.
  - intros e [K|[K|[K|[]]]]; [injection K as <-|injection K as <-|discriminate K].
    + split; [now apply guard_xhalf|]. split; [intros w; apply surely_all; auto; intros a; apply plain_regular; cbn; intuition discriminate|].
      intros w. apply (surely_imp s _ _ W So). intros a Ha. destruct (sort_numv "X" (a "X") eq_refl) as (r & Er); [apply Ha, E, Vx|]. cbn [teval xhalf X]. rewrite Er. unfold truth. destruct (dec _); discriminate.
    + split; [now apply guard_yina'|]. split; [intros w; apply surely_all; auto; intros a; apply plain_regular; cbn; intuition discriminate|].
      intros w. apply (surely_imp s _ _ W So). intros a Ha. destruct (sort_strv "Y" (a "Y") eq_refl) as (r & Er); [apply Ha, E, Vy|]. cbn [teval yina]. rewrite Er. unfold truth. destruct (dec _); discriminate.
  - intros w. apply else_covers; auto. cbn. auto.
  - intros P c Hc _. apply (in_map snd) in Hc. rewrite firsts_snd in Hc. cbn [snd bs_p map] in Hc. destruct Hc as [<-|[<-|[<-|[]]]].
    + apply (fits_sample elaw exnom "V" dU (lu "V")); [reflexivity|now apply sample_u|tauto].
    + apply (fits_sample elaw exnom "V" dV (ld "V")); [reflexivity|now apply sample_d|tauto].
    + apply fits_cons with (V' := fun z => V z \/ z = "V"); [apply (fits_sample elaw exnom "V" dV (ld "V")); [reflexivity|now apply sample_d|tauto]|]. eapply fits_cons; [apply fits_skip|]. apply fits_nil.
Qed.
Definition t_ifp : spQ := match run (IfElse bs_p) (Some p1) with Ok (Some t) => t | _ => sx end.
Example C33_ifelse_case : wf_spe elaw p1 /\ typed exnom no_env p1 /\ fits elaw exnom (IfElse bs_p) (vars p1) (den elaw p1) (fun z => vars p1 z \/ z = "V") /\ run (IfElse bs_p) (Some p1) = Ok (Some t_ifp) /\ calm (IfElse bs_p).
Proof.
  split; [exact p1_wf|]. split; [exact p1_typed|]. split; [apply bs_fits; [exact p1_wf|exact p1_typed|tauto|apply p1_vars; auto..]|]. split.
  - assert (K : okopt (run (IfElse bs_p) (Some p1)) = true) by (vm_compute; reflexivity). destruct (okopt_ok _ _ K) as (t & Et). unfold t_ifp. rewrite Et. reflexivity.
  - cbn. tauto.
Qed.
(** the distribution of X and Y in the result *)
Corollary if_keeps : keeps elaw p1 p1 t_ifp.
Proof.
  destruct C33_ifelse_case as (W & T & F & H & Cl). exact (proj2 (C33_keeps ioQ so_id po 9 elaw elaw_eq exhash ids_of true exnom ids_distinct (or_introl eq_refl) _ p1 _ t_ifp W T Cl F H)).
Qed.
(** a whole program *)
Definition bs_prog : cmdQ := Sequence [samp "X" dU; samp "Y" dY; IfElse bs_p; For 0 2 (fun i => samp (if Z.eqb i 0 then "U0" else "U1") dU)].
Definition pxy : spQ := ProductSPE [lu "X"; y1].
Lemma pxy_wf : wf_spe elaw pxy.
Proof. apply prod_wf; [exact (lu_wf "X")|apply y_wf; easy|]. apply leaf_apart. intros z [<-|[]]. auto. Qed.
Lemma pxy_typed : typed exnom no_env pxy.
Proof. cbn. repeat split. intuition (subst; reflexivity). Qed.
Definition t_prog : spQ := match run bs_prog None with Ok (Some t) => t | _ => sx end.
Definition vars_prog (z : string) : Prop := (((((False \/ z = "X") \/ z = "Y") \/ z = "V") \/ z = "U0") \/ z = "U1").
Example C35_program_case : fits elaw exnom bs_prog (fun _ => False) start vars_prog /\ run bs_prog None = Ok (Some t_prog).
Proof.
  split.
  - apply fits_cons with (V' := fun z => False \/ z = "X"); [apply (fits_sample elaw exnom "X" dU (lu "X")); [reflexivity|now apply sample_u|unfold vars_prog; tauto]|].
    apply fits_cons with (V' := fun z => (False \/ z = "X") \/ z = "Y"); [apply (fits_sample elaw exnom "Y" dY y1); [reflexivity| |unfold vars_prog; tauto]|].
    { split; [apply y_wf; easy|]. split; [cbn; auto|]. intros z. cbn. intuition. }
    apply fits_cons with (V' := fun z => ((False \/ z = "X") \/ z = "Y") \/ z = "V").
    { change (meaning elaw (samp "Y" dY) (meaning elaw (Sample "X" dU) start)) with (den elaw pxy). apply (bs_fits pxy (fun z => (False \/ z = "X") \/ z = "Y")); [exact pxy_wf|exact pxy_typed| |auto..]. intros z. cbn. intuition. }
    apply fits_cons with (V' := vars_prog); [apply fits_for; cbn [range Z.to_nat Z.sub Pos.to_nat map seq]|apply fits_nil].
    apply fits_cons with (V' := fun z => ((((False \/ z = "X") \/ z = "Y") \/ z = "V") \/ z = "U0")); [apply (fits_sample elaw exnom "U0" dU (lu "U0")); [reflexivity|now apply sample_u|unfold vars_prog; tauto]|].
    apply fits_cons with (V' := fun z => vars_prog z); [apply (fits_sample elaw exnom "U1" dU (lu "U1")); [reflexivity|now apply sample_u|unfold vars_prog; tauto]|]. apply fits_nil.
  - assert (K : okopt (run bs_prog None) = true) by (vm_compute; reflexivity). destruct (okopt_ok _ _ K) as (t & Et). unfold t_prog. rewrite Et. reflexivity.
Qed.

(** ** C34: overlapping cases; a case with a transform and a condition *)
Definition vs_y : list (sval (N:=QS)) := [VText "a"; VSet (fn ["a"; "b"])].
Definition f_s : nat -> sval (N:=QS) -> cmdQ := fun n _ => if Nat.eqb n 0 then samp "V" dU else samp "V" dV.
Lemma wf_fn : wf (N:=QS) (fn ["a"; "b"]).
Proof. split; [|left; discriminate]. apply NoDup_cons; [cbn; intuition discriminate|]. apply NoDup_cons; [cbn; tauto|apply NoDup_nil]. Qed.
Lemma vs_ok : Forall (case_ok exnom "Y") vs_y.
Proof. apply Forall_cons; [reflexivity|]. apply Forall_cons; [|apply Forall_nil]. split; [exact wf_fn|]. split; [discriminate|]. cbn. auto. Qed.
(** the values of Y in sx are a and b *)
Lemma y_covers : forall a b : Q, forall w, den elaw (NominalLeaf (S:=LQ) (D:=DQ) "Y" [("a", a); ("b", b)]) (ind (fun a => ~ exists v, In v vs_y /\ matches "Y" v a)) w = 0.
Proof.
  intros a b w. cbn [den]. unfold nom_law. cbn [map sumR fold_right fst snd]. rewrite !ind_false; [ring| |]; intros K; apply K; exists (VSet (fn ["a"; "b"])); (split; [right; left; reflexivity|]); cbn [matches]; unfold upd; rewrite String.eqb_refl; cbn; auto.
Qed.
Lemma covers_prod : forall (l : spQ) a b, wf_spe elaw (ProductSPE [l; NominalLeaf "Y" [("a", a); ("b", b)]%Q]) -> surely elaw (ProductSPE [l; NominalLeaf "Y" [("a", a); ("b", b)]%Q]) (fun a => exists v, In v vs_y /\ matches "Y" v a).
Proof.
  intros l a b W w. change (den elaw l (fun a' => den elaw (NominalLeaf (S:=LQ) (D:=DQ) "Y" [("a", a); ("b", b)]) (ind (fun a => ~ exists v, In v vs_y /\ matches "Y" v a)) a') w = 0).
  rewrite (den_ext elaw l _ (fun _ => 0)) by (intros a'; apply y_covers). assert (Wl : wf_spe elaw l) by (destruct W as (_ & (Wl & _) & _); exact Wl). exact (law_const (den_kernel elaw l Wl w) 0).
Qed.
Lemma covers_sx : surely elaw sx (fun a => exists v, In v vs_y /\ matches "Y" v a).
Proof.
  intros w. set (B := fun a : asg => ~ exists v, In v vs_y /\ matches "Y" v a).
  assert (E1 : den elaw p1 (ind B) w = 0) by exact (covers_prod ux (1#4) (3#4) p1_wf w).
  assert (E2 : den elaw p2 (ind B) w = 0) by exact (covers_prod dx (1#2) (1#2) p2_wf w).
  assert (E3 : den elaw p3 (ind B) w = 0) by exact (covers_prod ax (1#4) (3#4) p3_wf w).
  change (@toP LQ (1#2)%Q * den elaw p1 (ind B) w + (@toP LQ (1#4)%Q * den elaw p2 (ind B) w + (@toP LQ (1#4)%Q * den elaw p3 (ind B) w + 0)) = 0). rewrite E1, E2, E3. ring.
Qed.
Definition t_sw : spQ := match run (Switch "Y" vs_y f_s) (Some sx) with Ok (Some t) => t | _ => sx end.
Example C34_mixture_case : wf_spe elaw sx /\ typed exnom exenvof sx /\ vars sx "Y" /\ Forall (case_ok exnom "Y") vs_y /\ surely elaw sx (fun a => exists v, In v vs_y /\ matches "Y" v a) /\
  run (Switch "Y" vs_y f_s) (Some sx) = Ok (Some t_sw) /\
  forall kids, runs_of ioQ so_id po 9 elaw exhash ids_of true exnom exenvof sx (cases_on "Y" vs_y f_s) kids -> forall q c d, In (q, c, d) kids -> wf_spe elaw d /\ typed exnom exenvof d.
Proof.
  split; [exact sx_wf|]. split; [exact sx_typed|]. split; [apply sx_vars; auto|]. split; [exact vs_ok|]. split; [exact covers_sx|]. split.
  { assert (K : okopt (run (Switch "Y" vs_y f_s) (Some sx)) = true) by (vm_compute; reflexivity). destruct (okopt_ok _ _ K) as (t & Et). unfold t_sw. rewrite Et. reflexivity. }
  intros kids (K1 & K2) q c d Hk. destruct (K2 q c d Hk) as ((Wc & Tc & _) & E).
  assert (Hq : In (snd q) [samp "V" dU; samp "V" dV]).
  { assert (Iq : In q (firsts (cases_on "Y" vs_y f_s))) by (apply (in_map (fun k => fst (fst k))) in Hk; cbn [fst] in Hk; rewrite K1 in Hk; apply filter_In in Hk; apply Hk).
    apply (in_map snd) in Iq. rewrite firsts_snd in Iq. exact Iq. }
  destruct Hq as [Eq|[Eq|[]]]; rewrite <- Eq in E; cbn [interpret samp] in E;
    [change (dU "V") with (@Ok spQ (lu "V")) in E|change (dV "V") with (@Ok spQ (ld "V")) in E]; cbn [bind] in E; inv_bind E; injection E as ->;
    (eapply (sample_typed exenvof); [exact Wc| |exact Tc| |eassumption]); try exact (lu_wf "V"); try exact (ld_wf "V"); (now apply lu_typed) || (now apply ld_typed).
Qed.
Example C34_exhaustive_case : (forall a : lg LQ, lclose a lzero = true -> Rabs (toP a - 1) <= 0) /\ run (Switch "Y" vs_y f_s) (Some sx) = Ok (Some t_sw).
Proof. split; [exact close_exact|]. apply C34_mixture_case. Qed.
(** T = 2*X + n, and T < 2 *)
Definition T_n (n : nat) : tr QS := TPoly X [inject_Z (Z.of_nat n); 2]%Q.
Definition tlt : tr QS := EBasic KInt (TId "T") (iv NInf (qn 2) true true).
Definition f_t : nat -> sval (N:=QS) -> cmdQ := fun n _ => Sequence [Transform "T" (T_n n); Condition tlt].
Lemma gev_tlt : gev tlt.
Proof. apply (good_int (TId "T") NInf (qn 2) true true); exact Logic.I || reflexivity. Qed.
Lemma sure_restrict : forall (s : spQ) (P Q : asg -> Prop), wf_spe elaw s -> surely elaw s Q -> sure (restrict (den elaw s) P) Q.
Proof.
  intros s P Q W H w. unfold restrict. rewrite (law_null (den_kernel elaw s W w) (fun a => ~ Q a)); [unfold Rdiv; ring|apply H|auto with bnd|]. intros a Ha. rewrite (ind_false _ (fun a => ~ Q a)); [ring|exact Ha].
Qed.
Lemma sure_never : forall (s : spQ) (P Q : asg -> Prop) y t, wf_spe elaw s -> (forall a, Q a) -> sure (meaning elaw (Transform y t) (restrict (den elaw s) P)) Q.
Proof.
  intros s P Q y t W H w. cbn [meaning]. unfold restrict. rewrite (den_ext elaw s _ (fun _ => 0)) by (intros a; rewrite ind_false; [ring|intros K; apply K, H]). rewrite (law_const (den_kernel elaw s W w)). unfold Rdiv. ring.
Qed.
Lemma f_t_fits : fits elaw exnom (Switch "Y" vs_y f_t) (vars p1) (den elaw p1) (fun z => vars p1 z \/ z = "T").
Proof.
  apply fits_switch; [apply p1_vars; auto|exact vs_ok|intros w; exact (covers_prod ux (1#4) (3#4) p1_wf w)|].
  intros P c Hc _. apply (in_map snd) in Hc. rewrite firsts_snd in Hc. cbn [snd] in Hc. assert (exists n, c = Sequence [Transform "T" (T_n n); Condition tlt]) as (n & ->).
  { destruct Hc as [<-|[<-|[]]]; [exists 0%nat|exists 1%nat]; reflexivity. }
  pose proof (sorted_vars no_env p1 p1_wf p1_typed) as So.
  apply fits_cons with (V' := fun z => vars p1 z \/ z = "T"); [|apply fits_cons with (V' := fun z => vars p1 z \/ z = "T"); [|apply fits_nil]].
  - apply fits_transform.
    + split; exact Logic.I.
    + exact Logic.I.
    + reflexivity.
    + exists "X". intros x [<-|[]]. reflexivity.
    + apply sure_restrict; [exact p1_wf|]. apply (surely_imp p1 _ _ p1_wf So). intros a Ha. destruct (sort_numv "X" (a "X") eq_refl) as (r & Er); [apply Ha, p1_vars; auto|]. cbn [teval T_n X]. rewrite Er. discriminate.
    + apply sure_restrict; [exact p1_wf|]. apply surely_all; [exact p1_wf|]. intros a. exact Logic.I.
    + tauto.
  - apply fits_condition.
    + split; [exact gev_tlt|]. split; [apply Forall_cons; [apply uni_lit|apply Forall_nil]|]. split; [apply Forall_cons; [apply sort_num; [discriminate|intros x [<-|[]]; reflexivity]|apply Forall_nil]|]. intros x [<-|[]]. auto.
    + apply sure_never; [exact p1_wf|]. intros a. apply plain_regular; cbn; intuition discriminate.
Qed.
Definition t_swt : spQ := match run (Switch "Y" vs_y f_t) (Some p1) with Ok (Some t) => t | _ => sx end.
Example C34_switch_case : wf_spe elaw p1 /\ typed exnom no_env p1 /\ fits elaw exnom (Switch "Y" vs_y f_t) (vars p1) (den elaw p1) (fun z => vars p1 z \/ z = "T") /\ run (Switch "Y" vs_y f_t) (Some p1) = Ok (Some t_swt).
Proof.
  split; [exact p1_wf|]. split; [exact p1_typed|]. split; [exact f_t_fits|].
  assert (K : okopt (run (Switch "Y" vs_y f_t) (Some p1)) = true) by (vm_compute; reflexivity). destruct (okopt_ok _ _ K) as (t & Et). unfold t_swt. rewrite Et. reflexivity.
Qed.
(** Y = a matches both cases of vs_y, and selects the first *)
Example C34_first_case : forall w, w "Y" = FStr "a" -> matches "Y" (VSet (fn ["a"; "b"])) w /\
  (exists q, nth_error (firsts (cases_on "Y" vs_y f_s)) 0 = Some q /\ fst q w) /\ ~ exists q, nth_error (firsts (cases_on "Y" vs_y f_s)) 1 = Some q /\ fst q w.
Proof.
  intros w H. split; [cbn; rewrite H; cbn; auto|]. split; [apply (proj2 (C34_first _ (cases_on "Y" vs_y f_s) w 0)); split; [eexists; split; [reflexivity|exact H]|intros m q Hm; lia]|].
  intros K. apply (proj1 (C34_first _ (cases_on "Y" vs_y f_s) w 1)) in K. destruct K as (_ & K). apply (K 0%nat _ (le_n 1) eq_refl). exact H.
Qed.

(** ** C35: sampling after a mixture; a loop *)
Definition t_sam : spQ := match run (samp "V" dV) (Some sx) with Ok (Some t) => t | _ => sx end.
Example C35_sample_case : dV "V" = Ok (ld "V") /\ wf_spe elaw sx /\ wf_spe elaw (ld "V") /\ run (samp "V" dV) (Some sx) = Ok (Some t_sam).
Proof.
  split; [reflexivity|]. split; [exact sx_wf|]. split; [exact (ld_wf "V")|].
  assert (K : okopt (run (samp "V" dV) (Some sx)) = true) by (vm_compute; reflexivity). destruct (okopt_ok _ _ K) as (t & Et). unfold t_sam. rewrite Et. reflexivity.
Qed.
Example C35_after_case : wf_spe elaw p1 /\ typed exnom no_env p1 /\ fits elaw exnom (Sequence [Switch "Y" vs_y f_t; Skip]) (vars p1) (den elaw p1) (fun z => vars p1 z \/ z = "T") /\ run (Sequence [Switch "Y" vs_y f_t; Skip]) (Some p1) = Ok (Some t_swt).
Proof.
  split; [exact p1_wf|]. split; [exact p1_typed|]. split; [eapply fits_cons; [exact f_t_fits|]; eapply fits_cons; [apply fits_skip|apply fits_nil]|].
  unfold run. rewrite C35_sequence. destruct C34_switch_case as (_ & _ & _ & E). unfold run in E. rewrite E. reflexivity.
Qed.
(** three rounds of a loop that samples U(-1), U(0), U(1) *)
Definition loop_name (i : Z) : string := if Z.eqb i (-1) then "U-" else if Z.eqb i 0 then "U0" else "U1".
Example C35_for_case : exists t, run (For (-1) 2 (fun i => samp (loop_name i) dU)) None = Ok (Some t) /\ run (Sequence [samp "U-" dU; samp "U0" dU; samp "U1" dU]) None = Ok (Some t).
Proof.
  assert (K : okopt (run (Sequence [samp "U-" dU; samp "U0" dU; samp "U1" dU]) None) = true) by (vm_compute; reflexivity). destruct (okopt_ok _ _ K) as (t & Et).
  exists t. split; [|exact Et]. rewrite <- Et. unfold run. rewrite C35_for. reflexivity.
Qed.

(** ** Refutations *)
(** A string among the cases of a numeric variable: every later case is lost, because its set is
    intersected with the complement of the string, and the interpreter stops at an assertion. *)
Theorem C34_mixed_refuted : exists (s : spQ) x vs, wf_spe elaw s /\ typed exnom no_env s /\ vars s x /\ surely elaw s (fun a => exists v, In v vs /\ matches x v a) /\
  run (Switch x vs (fun _ _ => Skip)) (Some s) = Raise AssertionError /\ (exists t, run (Switch x (tl vs) (fun _ _ => Skip)) (Some s) = Ok (Some t)).
Proof.
  exists ux, "X", [VText "a"; VSet (iv NInf PInf true true)]. split; [exact ux_wf|]. assert (T : typed exnom no_env ux) by (cbn; split; auto; intros z Hz; apply env_num; exact Hz). split; [exact T|]. split; [cbn; auto|]. split.
  - apply (surely_imp ux _ _ ux_wf (sorted_vars no_env ux ux_wf T)). intros a Ha. destruct (sort_numv "X" (a "X") eq_refl) as (r & Er); [apply Ha; cbn; auto|]. exists (VSet (iv NInf PInf true true)). split; [cbn; auto|]. cbn. rewrite Er. apply in_iv_num. cbn. auto.
  - split; [reflexivity|]. apply okopt_ok. vm_compute. reflexivity.
Qed.
(** The empty set among the cases of a nominal variable: its complement is the real line. *)
Theorem C34_empty_refuted : exists (s : spQ) x vs, wf_spe elaw s /\ typed exnom no_env s /\ vars s x /\ surely elaw s (fun a => exists v, In v vs /\ matches x v a) /\
  run (Switch x vs (fun _ _ => Skip)) (Some s) = Raise AssertionError /\ (exists t, run (Switch x (tl vs) (fun _ _ => Skip)) (Some s) = Ok (Some t)).
Proof.
  exists y1, "Y", [VSet PEmpty; VSet (fn ["a"; "b"])]. split; [apply y_wf; easy|]. split; [cbn; auto|]. split; [reflexivity|]. split.
  - intros w. pose proof (y_covers (1#4) (3#4) w) as K. apply (law_null_sub (den_kernel elaw y1 (y_wf (1#4) (3#4) ltac:(easy) ltac:(easy) ltac:(easy)) w) _ _ K). intros a Ha Hv. apply Ha. destruct Hv as (v & [<-|[<-|[]]] & M); [exists (VSet (fn ["a"; "b"])); cbn in *; split; auto; rewrite M; cbn; auto|exists (VSet (fn ["a"; "b"])); cbn; auto].
  - split; [reflexivity|]. apply okopt_ok. vm_compute. reflexivity.
Qed.
(** An empty condition on a nominal variable: the else branch is lost. *)
Theorem C33_void_refuted : exists (s : spQ) e, wf_spe elaw s /\ typed exnom no_env s /\ gev e /\ (forall x, In x (symbols e) -> vars s x) /\ surely elaw s (fails e) /\
  run (IfElse [(Some e, Skip); (None, Skip)]) (Some s) = Raise AssertionError.
Proof.
  exists y1, (EBasic KNom (TId "Y") PEmpty). split; [apply y_wf; easy|]. split; [cbn; auto|]. split; [split; [refine (conj Logic.I (conj Logic.I (conj Logic.I _))); left; reflexivity|reflexivity]|]. split; [intros x [<-|[]]; reflexivity|]. split; [|reflexivity].
  intros w. cbn [den y1]. unfold nom_law. cbn [map sumR fold_right fst snd]. rewrite !ind_false; [ring| |]; intros K; apply K; unfold fails; cbn [teval]; unfold upd; rewrite String.eqb_refl; cbn; unfold truth; destruct (dec _); tauto || reflexivity.
Qed.

Definition all_prog_properties := (@C33_mixture, @C33_exhaustive, @C33_ifelse, @C33_keeps, @C33_void_refuted, @C34_mixture, @C34_exhaustive, @C34_switch, @C34_first, @C34_mixed_refuted, @C34_empty_refuted,
  @C35_sequence, @C35_empty, @C35_append, @C35_nesting, @C35_assoc, @C35_for_done, @C35_for_step, @C35_for, @C35_sample, @C35_program, @C35_after,
  @C33_mixture_case, @C33_exhaustive_case, @C33_ifelse_case, @C34_mixture_case, @C34_exhaustive_case, @C34_switch_case, @C34_first_case, @C35_program_case, @C35_sample_case, @C35_after_case, @C35_for_case).
Print Assumptions all_prog_properties.
