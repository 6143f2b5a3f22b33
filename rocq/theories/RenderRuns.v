(** The commands of a rendered expression can be compiled. *)
From Coq Require Import List Bool String Reals Lra Lia ZArith QArith Qreals FunctionalExtensionality PropExtensionality Classical.
From Verif Require Import Base Num Sets SetSpec Poly Trans TransSpec TransFacts Dnf DnfSpec Logs Spe SpeSpec SpeFacts SpeOps Prog ProgSpec ProgProofs SourceKernel
  NormSorts SpeEq CondTypes PropSpe SpeCons LeafEvents LeafProofs SampleSim Source TotalSpec ReturnSpec CompileSpec Render RenderSpec RenderCode RenderFits.
Import ListNotations.
Local Open Scope R_scope.

Section Runs.
  Context {N : numsys} {S : logsys} {D : distsys N S}.
  Context (dlaw : dist D -> (fval -> R) -> R) (nominal derived : string -> bool) (lexp : lg S -> Q) (cuts : string -> R -> Prop).
  Notation spe := (spe D).
  Notation tr := (tr N).
  Notation command := (command (N:=N) (D:=D)).
  Notation den := (den dlaw).
  Notation wf_leaf := (wf_leaf dlaw).
  Notation meaning := (meaning dlaw).
  Notation compiles := (compiles dlaw nominal derived cuts).
  Notation base := (base derived).
  Notation kernel := ProgSpec.kernel.
  Notation coded := (coded dlaw nominal lexp).
  Notation coded_all := (coded_all dlaw nominal lexp).
  Notation coded_cases := (coded_cases dlaw nominal lexp).
  Notation none := (fun (_ : string) (_ : R) => False).
  Notation flat := (flat derived cuts).
  Context (Hl : forall w, Q2R (lexp w) = toP w) (Hn : forall n, nominal (branch_var n) = true) (Hbr : forall n, derived (branch_var n) = false).

  Lemma compiles_same : forall c V K m W W' m', compiles c V K m W m' -> (forall z : string, W z <-> W' z) -> compiles c V K m W' m'.
  Proof. intros c V K m W W' m' C E. replace W' with W; auto. extensionality z. now apply propositional_extensionality. Qed.
  Lemma compiles_app : forall cs ds V K m V1 m1 W m2, compiles (Sequence cs) V K m V1 m1 -> compiles (Sequence ds) V1 (meaning (Sequence cs) K) m1 W m2 -> compiles (Sequence (cs ++ ds)) V K m W m2.
  Proof.
    induction cs as [|c cs IH]; intros ds V K m V1 m1 W m2 C1 C2.
    - inversion C1; subst. exact C2.
    - inversion C1; subst. cbn [app]. eapply compiles_cons; [eassumption|]. eapply IH; eassumption.
  Qed.
  Lemma compiles_one : forall c V K m W m', compiles (Sequence [c]) V K m W m' -> compiles c V K m W m'.
  Proof. intros c V K m W m' C. inversion C; subst. match goal with H : compiles (Sequence []) _ _ _ _ _ |- _ => inversion H; subst end. assumption. Qed.
  Lemma one_compiles : forall c V K m W m', compiles c V K m W m' -> compiles (Sequence [c]) V K m W m'.
  Proof. intros c V K m W m' C. eapply compiles_cons; [exact C|]. constructor. Qed.

  (** a distribution somewhere *)
  Definition live (K : kernel) : Prop := exists w, K (fun _ => 1) w = 1.
  Lemma live_restrict : forall K P, fair K -> chance K P -> live (restrict K P).
  Proof.
    intros K P F (w & H). exists w. unfold restrict. destruct (F w) as (M & _). rewrite (me_ext w K (fun a => 1 * ind P a) (ind P)) by (intro; ring). now field.
  Qed.
  (** what has been made is forgotten once there is a variable *)
  Definition forgets (V : string -> Prop) (m m' : option spe) : Prop := m = None -> (exists z, V z) -> m' = None.

  Lemma sample_compiles : forall x d l (V W : string -> Prop) K m, d x = Ok l -> plain_leaf dlaw nominal derived cuts x l -> ~ V x -> (forall z, W z <-> V z \/ z = x) ->
    exists m', compiles (Sample x d) V K m W m' /\ forgets V m m'.
  Proof.
    intros x d l V W K m El Pl Nx Hw. destruct (classic (exists z, V z)) as [Hz|Hz].
    - exists None. split; [|intros _ _; reflexivity]. now apply (compiles_sample dlaw nominal derived cuts x d l).
    - exists (Some l). split; [|intros _ K'; contradiction]. apply (compiles_first dlaw nominal derived cuts x d l); auto; [intros z Vz; eauto|]. intros z. rewrite Hw. split; auto. intros [K'|K']; auto. exfalso. eauto.
  Qed.
  Lemma bv_plain : forall (V : string -> Prop) v i, base V v -> nominal v = true -> plain_event nominal derived cuts V (bv_event (N:=N) v i) /\ Forall nonvoid (lits (bv_event (N:=N) v i)).
  Proof.
    intros V v i Vv Nv. destruct (bv_guard (N:=N) nominal (base V) v i Vv Nv) as ((G & _ & _ & Sy) & Nd). split; [|exact Nd]. split; [|exact Sy]. split; [exact G|]. constructor; [|constructor].
    eexists _, _, _. split; [reflexivity|]. rewrite Nv. right. exact Logic.I.
  Qed.
  Lemma cases_events : forall v i k l cs K bs, coded_cases v i k l cs K bs -> map fst cs = map Some (map (bv_event v) (seq i (List.length l))).
  Proof.
    intros v i k l. revert i k. induction l as [|c l IH]; intros i k cs K bs C; inversion C; subst; [reflexivity|]. cbn [map fst List.length seq]. f_equal. eapply IH; eauto.
  Qed.

  Lemma fits_cons_inv : forall c cs V K W, ProgSpec.fits dlaw nominal (Sequence (c :: cs)) V K W -> exists V', ProgSpec.fits dlaw nominal c V K V' /\ ProgSpec.fits dlaw nominal (Sequence cs) V' (meaning c K) W.
  Proof. intros c cs V K W F. inversion F; subst. eauto. Qed.
  Lemma transforms_compile : forall x env, env_built (N:=N) x env -> (forall y, In y (map fst env) -> nominal y = false) -> (forall y, In y (map fst (tl env)) -> derived y = true) ->
    forall e2 ts e1 V0 W0 K (V W : string -> Prop) m, env = (x, TId x) :: e1 ++ e2 -> Forall2 derives e2 ts -> ProgSpec.fits dlaw nominal (Sequence ts) V0 K W0 ->
    (forall z, In z (map fst ((x, TId x) :: e1)) -> V z) -> (forall z, In z (map fst e2) -> ~ V z) -> (forall z, W z <-> V z \/ In z (map fst e2)) -> compiles (Sequence ts) V K m W m.
  Proof.
    intros x env B Nom Dr. induction e2 as [|(y, t) e2 IH]; intros ts e1 V0 W0 K V W m E F Ft Hv Nv Hw; inversion F as [|? c ? ts' (t' & -> & St) F']; subst.
    - apply (compiles_same _ _ _ _ V); [constructor|]. intros z. rewrite Hw. cbn. tauto.
    - cbn [fst snd] in *. destruct St as (Gt & Rt & (u & Ou) & _ & _ & Ne & Sub).
      set (env := (x, TId x) :: e1 ++ (y, t) :: e2) in *.
      destruct (built_split x env B ((x, TId x) :: e1) y t e2 eq_refl) as (L & Sy).
      assert (Iy : In y (map fst (tl env))) by (unfold env; cbn [tl]; rewrite map_app; apply in_or_app; right; now left).
      assert (Nd : NoDup (map fst env)) by (eapply built_nodup; eauto).
      assert (Hu : In u (map fst ((x, TId x) :: e1))).
      { destruct (symbols t') as [|q qs] eqn:Eq; [congruence|]. assert (u = q) as -> by (symmetry; apply Ou; rewrite Eq; now left). destruct (Sy q) as [->|K']; [apply Sub; now left|now left|exact K']. }
      destruct (fits_cons_inv _ _ _ _ _ Ft) as (V1 & F1 & F2). inversion F1; subst.
      apply compiles_cons with (V' := fun z => V z \/ z = y) (m' := m).
      + apply compiles_transform with (x := u); auto; [apply Nv; now left| |tauto].
        apply Nom. unfold env. change ((x, TId x) :: e1 ++ (y, t) :: e2) with (((x, TId x) :: e1) ++ (y, t) :: e2). rewrite map_app. apply in_or_app. now left.
      + apply (IH ts' (e1 ++ [(y, t)]) V1 W0); auto.
        * unfold env. now rewrite <- app_assoc.
        * intros z Hz. change ((x, TId x) :: e1 ++ [(y, t)]) with (((x, TId x) :: e1) ++ [(y, t)]) in Hz. rewrite map_app in Hz. apply in_app_iff in Hz. destruct Hz as [Hz|[Hz|[]]]; auto.
        * intros z Hz [Vz|Ez]; [apply (Nv z); auto; now right|]. subst z. unfold env in Nd. change ((x, TId x) :: e1 ++ (y, t) :: e2) with (((x, TId x) :: e1) ++ (y, t) :: e2) in Nd. rewrite map_app in Nd. apply NoDup_remove_2 in Nd. apply Nd. apply in_or_app. now right.
        * intros z. rewrite Hw. cbn. intuition auto.
  Qed.
  Lemma real_compiles : forall disc x d supp cond env supp0 ts, wf_leaf (RealLeaf disc x d supp cond env) -> (forall y, In y (map fst env) -> nominal y = false) ->
    wf_iv supp0 -> (disc = true -> disc_supp dlaw d supp0) -> dlaw d (ind (in_iv supp0)) = 1 -> Forall2 derives (tl env) ts -> flat (RealLeaf disc x d supp cond env) ->
    forall K (V W : string -> Prop) m, fair K -> live K -> (forall z, In z (map fst env) -> ~ V z) -> (forall z, W z <-> V z \/ In z (map fst env)) ->
    exists m', compiles (Sequence (Sample x (real_dist disc d supp0) :: (if cond then [Condition (supp_event x supp)] else []) ++ ts)) V K m W m' /\ forgets V m m'.
  Proof.
    intros disc x d supp cond env supp0 ts Wf Nom Ws0 Wd0 P0 F2 (Dx & De & Cu & Dc) K V W m Fk Lk Nx' Hw. pose proof Wf as (_ & _ & _ & _ & (B & _) & _). destruct (built_head x env B) as (env' & ->). set (env := (x, TId x) :: env') in *.
    destruct (real_leaf_ok dlaw nominal disc x d supp cond env supp0 ts Wf Nom Ws0 Wd0 P0 F2 K V W Fk Hw) as (Ft & _).
    pose proof (real_dist_ok dlaw disc x d supp0 Ws0 Wd0) as Er. set (l0 := RealLeaf disc x d supp0 false (base_env x)) in *.
    assert (Sl : sample_ok dlaw nominal x l0) by (inversion Ft; subst; match goal with H : ProgSpec.fits _ _ (Sample _ _) _ _ _ |- _ => inversion H; subst end; congruence).
    assert (Nx : ~ V x) by (apply Nx'; now left). assert (Nv : nominal x = false) by (apply Nom; now left). assert (Nd : NoDup (map fst env)) by (eapply built_nodup; eauto).
    assert (Pl : plain_leaf dlaw nominal derived cuts x l0).
    { split; auto. split; [exact Dx|]. split; [left; reflexivity|]. split; [split; [exact Nv|discriminate]|]. intros Hd r [K'|[]]. now apply Dc. }
    set (V1 := fun z => V z \/ z = x).
    destruct (sample_compiles x _ l0 V V1 K m Er Pl Nx (fun z => iff_refl _)) as (m1 & C1 & G1).
    assert (Last : forall V0 K2 m2, ProgSpec.fits dlaw nominal (Sequence ts) V0 K2 W -> compiles (Sequence ts) V1 K2 m2 W m2).
    { intros V0 K2 m2 Ft2. apply (transforms_compile x env B Nom De env' ts [] V0 W); auto; [intros z [<-|[]]; now right| |].
      - intros z Hz [Vz| ->]; [apply (Nx' z); auto; now right|]. inversion Nd; contradiction.
      - intros z. unfold V1. rewrite Hw. cbn. intuition auto. }
    destruct cond; cbn [app].
    - exists None. split; [|intros _ _; reflexivity]. eapply compiles_cons; [exact C1|]. destruct (fits_cons_inv _ _ _ _ _ Ft) as (Va & Fa & Fb). cbn [app] in Fb. destruct (fits_cons_inv _ _ _ _ _ Fb) as (Vb & Fc & Fd). eapply compiles_cons; [|eapply Last; exact Fd]. destruct Wf as (Wi & _ & Dk & Pc & _). pose proof (d_law _ _ _ Dk) as Ld. apply compiles_condition.
      + exists x. now right.
      + split; [|intros y [<-|[]]; split; [now right|exact Dx]]. split.
        * split; [|reflexivity]. cbn. split; [exact Logic.I|]. split; [exact Logic.I|]. split; [exact Wi|]. eauto.
        * constructor; [|constructor]. eexists _, _, _. split; [reflexivity|]. rewrite Nv. split; [discriminate|]. split; [exact Logic.I|]. split; [reflexivity|]. split; [|intros vs y r [E|[]]; discriminate]. intros i [E|[]]. injection E as <-. now apply Cu.
      + right. left. reflexivity.
      + left. exact Logic.I.
      + destruct Lk as (w & Mw). exists w. cbn [ProgSpec.meaning]. rewrite Er. cbn [SpeSpec.den l0]. unfold l0. cbn [SpeSpec.den]. unfold real_law. set (P := dlaw d (ind (in_iv supp))) in *.
        assert (Numb : dlaw d (ind (fun v => ~ is_num v)) = 0) by (apply (law_full Ld), (d_num _ _ _ Dk)).
        rewrite (me_ext w K _ (fun a => P * (fun _ => 1) a)).
        * destruct (Fk w) as (M & _). rewrite (me_scale w K M) by auto with bnd. rewrite Mw. cbn in Pc. lra.
        * intros a. rewrite Rmult_1_r. apply (law_as Ld _ _ _ Numb); [apply (bnd_comp _ _ (fun v => place x (base_env x) a v)); auto with bnd|auto with bnd|]. intros v Hv. apply NNPP in Hv. apply ind_eq. rewrite base_place. now apply supp_holds.
    - exists m1. split; auto. destruct (fits_cons_inv _ _ _ _ _ Ft) as (Va & Fa & Fb). eapply compiles_cons; [exact C1|]. eapply Last. exact Fb.
  Qed.

  Theorem coded_compiles :
    (forall k s cs T bs, coded k s cs T bs -> flat s -> forall K (V W : string -> Prop) m, fair K -> live K -> sure K (in_range bs) -> (forall x, In x (map fst bs) -> V x) -> (forall x, vars s x -> ~ V x) -> (forall z, W z <-> V z \/ vars s z) ->
       exists m', compiles (Sequence cs) V K m W m' /\ forgets V m m') /\
    (forall k l cs T bs, coded_all k l cs T bs -> All flat l -> ForallOrdPairs apart l -> forall K (V W : string -> Prop) m, fair K -> live K -> sure K (in_range bs) -> (forall x, In x (map fst bs) -> V x) -> (forall x, pvars l x -> ~ V x) -> (forall z, W z <-> V z \/ pvars l z) ->
       exists m', compiles (Sequence cs) V K m W m' /\ forgets V m m') /\
    (forall v i k l cs T bs, coded_cases v i k l cs T bs -> All (fun c => flat (fst c)) l -> forall K (V W : string -> Prop), fair K -> sure K (in_range bs) -> V v -> (forall x, In x (map fst bs) -> V x) -> (forall c, In c l -> forall x, vars (fst c) x -> ~ V x) -> (forall c, In c l -> forall z, W z <-> V z \/ vars (fst c) z) ->
       forall P c, In (P, c) (map (fun b => (test (fst b), snd b)) cs) -> chance K P -> compiles c V (restrict K P) None W None).
  Proof.
    apply (coded_mut dlaw nominal lexp); intros; auto.
    - (* nominal *)
      pose proof (choice_ok dlaw x ws H) as Ec. assert (Nx : ~ V x) by (apply H7; reflexivity).
      destruct (sample_compiles x _ (NominalLeaf x ws) V W K m Ec) as (m' & C & G); auto; [|intros z; rewrite H8; cbn; intuition|exists m'; split; auto; now apply one_compiles].
      split; [|split; [exact H2|split; [left; reflexivity|split; [exact H0|exact Logic.I]]]]. split; [exact H|]. split; [split; [exact H0|exact Logic.I]|]. intros z. cbn. intuition.
    - (* real *)
      apply (real_compiles disc x d supp cond env supp0 ts); auto; intros y Hy; now apply H0.
    - (* product *)
      apply H1; auto. apply H.
    - (* one *)
      destruct H2 as (Fl & _). pose proof (sum_vars dlaw [c] c H (or_introl eq_refl)) as Sv. apply H1; [exact Fl|exact H3|exact H4|exact H5|exact H6|intros x Hx; apply H7; now apply Sv|intros z; now rewrite H8, Sv].
    - (* sum *)
      rename K into T, K0 into K. set (v := branch_var k) in *. assert (Vv : V v) by (apply H6; now left). pose proof (cases_apart dlaw nominal lexp _ _ _ _ _ _ _ H0) as Ap. pose proof (cases_events _ _ _ _ _ _ _ H0) as Ce.
      exists None. split; [|intros _ _; reflexivity]. apply one_compiles. apply compiles_if with (es := map (bv_event v) (seq 0 (List.length l))).
      + exists v. exact Vv.
      + split; [|left; exact Ce]. destruct l as [|c l]; [|discriminate]. destruct H as (_ & H & _). cbn in H. lra.
      + intros e He. apply in_map_iff in He. destruct He as (i & <- & _). apply bv_plain; [split; auto; apply Hbr|apply Hn].
      + apply (sure_weak K _ _ H3 H5). intros a Ha. inversion Ha as [|? ? (p & Hp & Ea) _]; subst. cbn [fst snd] in *. destruct (range_keys lexp _ _ Hp) as (j & Ej & Hj). rewrite map_length in Hj. rewrite Ej in Ea.
        assert (Hin : In (picked v j) (map (fun b => test (fst b)) cs)) by (rewrite (cases_tests dlaw nominal lexp _ _ _ _ _ _ _ H0); apply in_map, in_seq; lia).
        apply in_map_iff in Hin. destruct Hin as (b & Eb & Hb). exists b. split; auto. rewrite Eb. exact Ea.
      + intros P c _ _. destruct (classic (exists y, base V y /\ y <> v)) as [(y & Vy & Ne)|No]; [left; exists y, v; repeat split; auto; try apply Vy; apply Hbr|]. right. left. intros y Vy. destruct (string_dec y v) as [->|Ne]; [apply Hn|]. exfalso. eauto.
      + rewrite (firsts_apart _ _ (Ap _ snd)). apply H1; auto.
        * apply (sure_weak K _ _ H3 H5). intros a Ha. now inversion Ha.
        * intros x Hx. apply H6. now right.
        * intros c Hc x Hx. apply H7. now apply (sum_vars dlaw l c H Hc).
        * intros c Hc z. rewrite H8. rewrite (sum_vars dlaw l c H Hc z). reflexivity.
    - (* nil *)
      exists m. split; [|intros -> _; reflexivity]. apply (compiles_same _ _ _ _ V); [constructor|]. intros z. rewrite H6. cbn. tauto.
    - (* cons *)
      rename K into T, K0 into K. destruct H3 as (Fc & Fl). inversion H4 as [|? ? Ap Al]; subst.
      pose proof (proj1 (coded_tame dlaw nominal lexp) _ _ _ _ _ H) as T1.
      assert (S1 : sure K (in_range bs)) by (apply (sure_weak K _ _ H5 H7); intros a Ha; now apply Forall_app in Ha).
      assert (S2 : sure K (in_range es)) by (apply (sure_weak K _ _ H5 H7); intros a Ha; now apply Forall_app in Ha).
      destruct (H0 Fc K V (fun z => V z \/ vars c z) m) as (m1 & C1 & G1); auto; [intros x Hx; apply H8; rewrite map_app; apply in_or_app; auto|intros x Hx; apply H9; rewrite pvars_cons; auto|tauto|].
      destruct (proj1 (coded_fits dlaw nominal lexp Hn) _ _ _ _ _ H K V (fun z => V z \/ vars c z)) as (_ & M1); auto; [intros x Hx; apply H8; rewrite map_app; apply in_or_app; auto|tauto|].
      assert (Mass : forall w, meaning (Sequence cs) K (fun _ => 1) w = K (fun _ => 1) w).
      { intros w. rewrite M1 by auto with bnd. destruct (H5 w) as (M & _). apply (me_as w K M _ _ _ (S1 w)); auto with bnd; [apply (ta_bnd _ _ _ T1); auto with bnd|].
        intros a Ha. apply NNPP in Ha. now apply (proj1 (coded_total dlaw nominal lexp) _ _ _ _ _ H). }
      assert (Fk : fair (meaning (Sequence cs) K)).
      { intros w. destruct (H5 w) as (M & Ms). split; [|now rewrite Mass]. apply (agree_meas w (fun f => K (T f))); [|intros f Hf; symmetry; now apply M1]. constructor; intros.
        + rewrite <- (me_plus w K M) by now apply (ta_bnd _ _ _ T1). apply me_ext. intros a. now apply (ta_plus _ _ _ T1).
        + rewrite <- (me_scale w K M) by now apply (ta_bnd _ _ _ T1). apply me_ext. intros a. now apply (ta_scale _ _ _ T1).
        + apply (me_pos w K M); [now apply (ta_bnd _ _ _ T1)|]. intros a. now apply (ta_pos _ _ _ T1). }
      destruct (H2 Fl Al (meaning (Sequence cs) K) (fun z => V z \/ vars c z) W m1) as (m2 & C2 & G2); auto.
      { destruct H6 as (w & Mw). exists w. now rewrite Mass. }
      { intros w. rewrite M1 by auto with bnd. apply (sure_null K (in_range es) _ w H5 S2); [apply (ta_bnd _ _ _ T1); auto with bnd|]. intros a Ha.
        transitivity (T (fun b => 0 * (fun _ => 0) b) a); [|rewrite (ta_scale _ _ _ T1) by auto with bnd; ring]. apply (ta_reach _ _ _ T1). intros b Hb. rewrite Rmult_0_l. apply ind_false. intros K'. apply K'.
        apply (range_out dlaw nominal lexp k c cs T bs es (k + List.length bs) a b H (proj1 (proj2 (coded_names dlaw nominal lexp)) _ _ _ _ _ H1) Hb Ha). }
      { intros x Hx. left. apply H8. rewrite map_app. apply in_or_app. auto. }
      { intros x Hx [Vx|Cx]; [apply (H9 x); [rewrite pvars_cons; auto|exact Vx]|]. rewrite Forall_forall in Ap. apply (proj1 (pvars_in _ _)) in Hx. destruct Hx as (d & Hd & Dx). exact (Ap d Hd x Cx Dx). }
      { intros z. rewrite H10, pvars_cons. tauto. }
      exists m2. split; [eapply compiles_app; eauto|]. intros Em (z & Vz). apply G2; [apply G1; eauto|]. exists z. now left.
    - (* no case *)
      match goal with H : In _ (map _ []) |- _ => destruct H end.
    - (* case *)
      rename K into T, K0 into K. destruct H4 as (Fc & Fl). destruct H11 as [E|Hd].
      + cbn [fst snd] in E. injection E as <- <-. rewrite test_bv in *.
        destruct (H0 Fc (restrict K (picked v i)) V W None) as (m' & C & G); [now apply fair_restrict|now apply live_restrict|apply sure_restrict; auto; apply (sure_weak K _ _ H5 H6); intros a Ha; now apply Forall_app in Ha|intros x Hx; apply H8; rewrite map_app; apply in_or_app; auto|apply H9; now left|apply H10; now left|].
        rewrite (G eq_refl (ex_intro _ v H7)) in C. destruct H1 as [->| ->]; [exact C|now apply compiles_one].
      + apply (H3 Fl K V W); auto; [apply (sure_weak K _ _ H5 H6); intros a Ha; now apply Forall_app in Ha|intros x Hx; apply H8; rewrite map_app; apply in_or_app; auto|intros d Hd'; apply H9; now right|intros d Hd'; apply H10; now right].
  Qed.
End Runs.
