(** Property C38: mutual information of two events (src/spe.py:87-103).  The specification is in
    MISpec.v. *)
From Coq Require Import List Bool String Reals Lra Lia ZArith QArith Qreals FunctionalExtensionality.
From Verif Require Import Base Num Sets SetSpec SetIv SetProofs SetOr SetOps SetAlg SetBuilt
  Poly Trans TransSpec TransFacts PolyProofs InvProofs InvMain EvProofs ArithProofs
  Dnf DnfSpec DnfProofs DnfUnion Logs Spe SpeSpec SpeFacts SpeRect LeafProofs LeafEvents LeafCond SpeCons LeafGiven MemoProofs NormSorts LogprobProofs LogprobTop SpeEq SimplifyProofs CondTypes CondProofs CondTop PropSpe
  SpeOps Prog ProgSpec ProgEvents MISpec.
Import ListNotations.
Local Open Scope R_scope.

(** ** Gibbs' inequality *)
Lemma ln_below : forall x, 0 < x -> ln x <= x - 1 /\ (ln x = x - 1 -> x = 1).
Proof.
  intros x Hx. destruct (Req_dec (ln x) 0) as [E|E].
  - assert (x = 1) as ->; [|rewrite ln_1; lra]. rewrite <- (exp_ln x Hx), E. apply exp_0.
  - pose proof (exp_ineq1 (ln x) E) as K. rewrite exp_ln in K by auto. lra.
Qed.
Lemma cell_below : forall p a b, 0 <= p -> 0 <= a -> 0 <= b -> (0 < p -> 0 < a /\ 0 < b) -> p - a * b <= cell p a b /\ (cell p a b = p - a * b -> p = a * b).
Proof.
  intros p a b Hp Ha Hb K. unfold cell. destruct (dec (p = 0)) as [->|Np].
  - pose proof (Rmult_le_pos a b Ha Hb). lra.
  - assert (Pp : 0 < p) by lra. destruct (K Pp) as (Pa & Pb). pose proof (Rmult_lt_0_compat a b Pa Pb) as Pq. pose proof (Rdiv_lt_0_compat _ _ Pq Pp) as Px.
    destruct (ln_below (a * b / p) Px) as (L & E).
    assert (Q : ln (p / (a * b)) = - ln (a * b / p)).
    { rewrite <- ln_Rinv by auto. f_equal. field. repeat split; lra. }
    rewrite Q. assert (Z : p * (a * b / p) = a * b) by (field; lra). split.
    + pose proof (Rmult_le_compat_l p _ _ Hp L). lra.
    + intros H. assert (p * ln (a * b / p) = p * (a * b / p - 1)) as H' by lra. apply Rmult_eq_reg_l in H'; [|lra]. rewrite <- Z, (E H'). ring.
Qed.
Lemma cell_product : forall a b, cell (a * b) a b = 0.
Proof.
  intros a b. unfold cell. destruct (dec (a * b = 0)) as [|Np]; auto. unfold Rdiv. rewrite Rinv_r by auto. rewrite ln_1. ring.
Qed.
Lemma cell_above : forall p a b, 0 <= p <= a -> p <= b -> cell p a b <= - (p * ln a).
Proof.
  intros p a b Hp Hb. unfold cell. destruct (dec (p = 0)) as [->|Np]; [lra|]. assert (0 < p) by lra. assert (0 < a) by lra. assert (0 < b) by lra.
  rewrite Ropp_mult_distr_r. apply Rmult_le_compat_l; [lra|]. rewrite <- ln_Rinv by auto.
  assert (K : p / (a * b) <= / a); [|destruct K as [K| ->]; [left; apply ln_increasing; auto|right; reflexivity]].
  - apply Rmult_le_reg_l with (a * b); [now apply Rmult_lt_0_compat|]. replace (a * b * (p / (a * b))) with p by (field; lra). replace (a * b * / a) with b by (field; lra). auto.
  - apply Rdiv_lt_0_compat; auto. now apply Rmult_lt_0_compat.
Qed.
Lemma cell_self : forall a, 0 <= a -> cell a a a = - (a * ln a).
Proof.
  intros a Ha. unfold cell. destruct (dec (a = 0)) as [->|Na]; [ring|]. replace (a / (a * a)) with (/ a) by (field; auto). rewrite ln_Rinv by lra. ring.
Qed.
Lemma cell_sym : forall p a b, cell p a b = cell p b a.
Proof. intros. unfold cell. now rewrite (Rmult_comm a b). Qed.

Section Properties.
  Context {N : numsys} {S : logsys} {D : distsys N S} (io : iterorder N) (so : strorder) (po : polyoracle N) (fuel : nat).
  Context (dlaw : dist D -> (fval -> R) -> R).
  Context (ident : spe D -> nat).
  Context (nominal : string -> bool).
  Notation spe := (spe D).
  Notation tr := (tr N).
  Notation wf_spe := (wf_spe dlaw).
  Notation surely := (surely dlaw).
  Notation prob := (prob dlaw).
  Notation chance := (chance dlaw).
  Notation information := (information dlaw).
  Notation distinct := (distinct ident).
  Notation logprob := (logprob io po fuel ident).
  Notation mutual_information := (mutual_information io po fuel ident).

  (** ** The law of two events *)
  Section Law.
    Context (s : spe) (W : wf_spe s).
    Let L := den_kernel dlaw s W w0.
    Lemma chance_01 : forall P, 0 <= chance s P <= 1.
    Proof. intros P. apply (law_01 L). Qed.
    Lemma chance_ext : forall P Q, (forall w, P w <-> Q w) -> chance s P = chance s Q.
    Proof. intros P Q H. apply (law_ext (I:=fun g => den dlaw s g w0)). intros w. now apply ind_eq. Qed.
    Lemma chance_as : forall A P Q, surely s A -> (forall w, A w -> (P w <-> Q w)) -> chance s P = chance s Q.
    Proof. intros A P Q Sa H. apply (law_as L (fun w => ~ A w) _ _ (Sa w0)); auto with bnd. intros w Hw. apply ind_eq. destruct (dec (A w)); [auto|tauto]. Qed.
    Lemma chance_split : forall P Q, chance s P = chance s (fun w => P w /\ Q w) + chance s (fun w => P w /\ ~ Q w).
    Proof.
      intros P Q. unfold MISpec.chance, Pr. rewrite <- (law_plus L) by auto with bnd. apply (law_ext (I:=fun g => den dlaw s g w0)). intros w.
      unfold ind. destruct (dec (P w)), (dec (P w /\ Q w)), (dec (P w /\ ~ Q w)); try tauto; try lra.
    Qed.
    Lemma chance_not : forall P, chance s (fun w => ~ P w) = 1 - chance s P.
    Proof.
      intros P. assert (chance s (fun _ => True) = 1). { unfold MISpec.chance, Pr. rewrite <- (law_one L). apply (law_ext (I:=fun g => den dlaw s g w0)). intros w. now apply ind_true. }
      pose proof (chance_split (fun _ => True) P) as K. cbv beta in K. rewrite (chance_ext (fun w => True /\ P w) P) in K by tauto. rewrite (chance_ext (fun w => True /\ ~ P w) (fun w => ~ P w)) in K by tauto. lra.
    Qed.
    Lemma chance_swap : forall P Q, chance s (fun w => P w /\ Q w) = chance s (fun w => Q w /\ P w).
    Proof. intros. apply chance_ext. tauto. Qed.
    (** the four cells in terms of three numbers *)
    Lemma table_facts : forall P Q, let a := chance s P in let b := chance s Q in let p := chance s (fun w => P w /\ Q w) in
      chance s (fun w => P w /\ ~ Q w) = a - p /\ chance s (fun w => ~ P w /\ Q w) = b - p /\ chance s (fun w => ~ P w /\ ~ Q w) = 1 - a - b + p.
    Proof.
      intros P Q a b p. pose proof (chance_split P Q) as K1. pose proof (chance_split Q P) as K2. rewrite (chance_swap Q P) in K2. pose proof (chance_split (fun w => ~ P w) Q) as K3. rewrite chance_not in K3.
      rewrite (chance_ext (fun w => Q w /\ ~ P w) (fun w => ~ P w /\ Q w)) in K2 by tauto. cbv beta in K1, K2, K3. unfold a, b, p. repeat split; lra.
    Qed.
    Lemma information_bounds : forall P Q, 0 <= information s P Q /\ (information s P Q = 0 <-> independent dlaw s P Q).
    Proof.
      intros P Q. unfold MISpec.information, independent. cbv zeta. cbv beta. rewrite !chance_not. pose proof (table_facts P Q) as (T1 & T2 & T3). cbv zeta in T1, T2, T3.
      pose proof (chance_01 (fun w => P w /\ Q w)) as B1. pose proof (chance_01 (fun w => P w /\ ~ Q w)) as B2. pose proof (chance_01 (fun w => ~ P w /\ Q w)) as B3. pose proof (chance_01 (fun w => ~ P w /\ ~ Q w)) as B4. pose proof (chance_01 P) as Ba. pose proof (chance_01 Q) as Bb.
      rewrite T1 in B2 |- *. rewrite T2 in B3 |- *. rewrite T3 in B4 |- *. clear T1 T2 T3. set (a := chance s P) in *. set (b := chance s Q) in *. set (p := chance s (fun w => P w /\ Q w)) in *. clearbody a b p.
      destruct (cell_below p a b) as (C1 & E1); try lra. destruct (cell_below (a - p) a (1 - b)) as (C2 & E2); try lra. destruct (cell_below (b - p) (1 - a) b) as (C3 & E3); try lra. destruct (cell_below (1 - a - b + p) (1 - a) (1 - b)) as (C4 & E4); try lra.
      split; [lra|]. split.
      - intros H. apply E1. lra.
      - intros ->. replace (a - a * b) with (a * (1 - b)) by ring. replace (b - a * b) with ((1 - a) * b) by ring. replace (1 - a - b + a * b) with ((1 - a) * (1 - b)) by ring. rewrite !cell_product. ring.
    Qed.
    Lemma information_sym : forall P Q, information s P Q = information s Q P.
    Proof.
      intros P Q. unfold MISpec.information. cbv zeta. cbv beta. rewrite (chance_swap P Q), (chance_ext (fun w => P w /\ ~ Q w) (fun w => ~ Q w /\ P w)), (chance_ext (fun w => ~ P w /\ Q w) (fun w => Q w /\ ~ P w)), (chance_ext (fun w => ~ P w /\ ~ Q w) (fun w => ~ Q w /\ ~ P w)) by tauto.
      rewrite (cell_sym _ (chance s P) (chance s Q)), (cell_sym _ (chance s P) (chance s (fun w => ~ Q w))), (cell_sym _ (chance s (fun w => ~ P w)) (chance s Q)), (cell_sym _ (chance s (fun w => ~ P w)) (chance s (fun w => ~ Q w))). ring.
    Qed.
    Lemma information_self : forall P Q, information s P Q <= uncertainty dlaw s P.
    Proof.
      intros P Q. unfold uncertainty, MISpec.information. cbv zeta. cbv beta. rewrite !chance_not. pose proof (table_facts P Q) as (T1 & T2 & T3). cbv zeta in T1, T2, T3.
      rewrite (chance_ext (fun w => P w /\ P w) P), (chance_ext (fun w => ~ P w /\ ~ P w) (fun w => ~ P w)), (chance_ext (fun w => ~ P w /\ P w) (fun w => P w /\ ~ P w)) by tauto.
      assert (E0 : chance s (fun w => P w /\ ~ P w) = 0) by (pose proof (table_facts P P) as (K & _); cbv zeta in K; rewrite K, (chance_ext (fun w => P w /\ P w) P) by tauto; ring).
      rewrite E0, chance_not. clear E0.
      pose proof (chance_01 (fun w => P w /\ Q w)) as B1. pose proof (chance_01 (fun w => P w /\ ~ Q w)) as B2. pose proof (chance_01 (fun w => ~ P w /\ Q w)) as B3. pose proof (chance_01 (fun w => ~ P w /\ ~ Q w)) as B4. pose proof (chance_01 P) as Ba. pose proof (chance_01 Q) as Bb.
      rewrite T1 in B2 |- *. rewrite T2 in B3 |- *. rewrite T3 in B4 |- *. clear T1 T2 T3. set (a := chance s P) in *. set (b := chance s Q) in *. set (p := chance s (fun w => P w /\ Q w)) in *. clearbody a b p.
      pose proof (cell_above p a b). pose proof (cell_above (a - p) a (1 - b)). pose proof (cell_above (b - p) (1 - a) b). pose proof (cell_above (1 - a - b + p) (1 - a) (1 - b)).
      rewrite (cell_self a), (cell_self (1 - a)) by lra. unfold cell at 5 6. destruct (dec (0 = 0)); [|lra]. lra.
    Qed.
    Lemma information_as : forall A P Q P' Q', surely s A -> (forall w, A w -> (P w <-> P' w)) -> (forall w, A w -> (Q w <-> Q' w)) -> information s P Q = information s P' Q'.
    Proof.
      intros A P Q P' Q' Sa HP HQ. assert (E : forall X Y : asg -> Prop, (forall w, A w -> (X w <-> Y w)) -> chance s X = chance s Y) by (intros; now apply (chance_as A)).
      unfold MISpec.information. cbv zeta. cbv beta. rewrite (E P P'), (E Q Q'), (E (fun w => ~ P w) (fun w => ~ P' w)), (E (fun w => ~ Q w) (fun w => ~ Q' w)), (E (fun w => P w /\ Q w) (fun w => P' w /\ Q' w)), (E (fun w => P w /\ ~ Q w) (fun w => P' w /\ ~ Q' w)),
        (E (fun w => ~ P w /\ Q w) (fun w => ~ P' w /\ Q' w)), (E (fun w => ~ P w /\ ~ Q w) (fun w => ~ P' w /\ ~ Q' w)); auto; intros w Aw; specialize (HP w Aw); specialize (HQ w Aw); tauto.
    Qed.
  End Law.

  (** ** The events that the code asks about *)
  (** The parts of an event have the sorts of their variables, are not about the empty set, and
      the event is almost surely defined. *)
  Definition decided (s : spe) (e : tr) : Prop :=
    gev e /\ event_sorts nominal e /\ Forall nonvoid (lits e) /\ surely s (fun w => regular true e w /\ teval e w <> None).
  Definition usual (e : tr) (w : asg) : Prop := regular true e w /\ teval e w <> None.
  Lemma surely_and : forall s P Q, wf_spe s -> surely s P -> surely s Q -> surely s (fun w => P w /\ Q w).
  Proof.
    clear -dlaw. intros s P Q W HP HQ w. pose proof (den_kernel dlaw s W w) as L.
    assert (E : den dlaw s (ind (fun a => ~ (P a /\ Q a))) w <= den dlaw s (ind (fun a => ~ P a)) w + den dlaw s (ind (fun a => ~ Q a)) w).
    { rewrite <- (law_plus L) by auto with bnd. apply (law_mono L); auto with bnd. intros a. unfold ind. destruct (dec (~ (P a /\ Q a))), (dec (~ P a)), (dec (~ Q a)); try lra; tauto. }
    rewrite (HP w), (HQ w) in E. pose proof (law_01 L (fun a => ~ (P a /\ Q a))) as B. unfold Pr in B. lra.
  Qed.
  Section Events.
    Context (s : spe) (W : wf_spe s) (a b : tr) (Da : decided s a) (Db : decided s b).
    Let A w := usual a w /\ usual b w.
    Notation neat := (neat (N:=N) nominal (fun _ => True) A).
    Lemma surely_usual : surely s A.
    Proof. apply surely_and; auto; [apply Da|apply Db]. Qed.
    Lemma decided_neat : forall e, (e = a \/ e = b) -> Forall neat (lits e).
    Proof.
      intros e He. assert (De : decided s e) by (destruct He; subst; auto). assert (Re : forall w, A w -> regular true e w) by (intros w ((R1 & _) & (R2 & _)); destruct He; subst; auto).
      destruct De as (G & So & _ & _). pose proof (gev_lits _ G) as Gl. unfold event_sorts in So. rewrite Forall_forall in *. intros l Hl. destruct (Gl l Hl) as (Gl' & _). split; auto. split; auto. split; auto.
      intros w Aw. specialize (Re w Aw). rewrite (regular_lits e true w G), Forall_forall in Re. auto.
    Qed.
    (** an event built from a and b: may be asked about, and means P *)
    Definition stands (P : asg -> Prop) (e : tr) : Prop := gev e /\ Forall neat (lits e) /\ forall w, A w -> (holds e w <-> P w).
    Lemma stands_pos : forall e, (e = a \/ e = b) -> stands (holds e) e.
    Proof. intros e He. split; [destruct He; subst; [apply Da|apply Db]|]. split; [now apply decided_neat|tauto]. Qed.
    Lemma stands_not : forall e n, (e = a \/ e = b) -> ev_not io e = Ok n -> stands (fun w => ~ holds e w) n.
    Proof.
      intros e n He H. assert (De : decided s e) by (destruct He; subst; auto). destruct (ev_not_ok io e n (proj1 De) H) as (Gn & K). split; auto. split; [apply (neat_not io _ _ _ e n); auto; [apply De|now apply decided_neat|apply De]|].
      intros w Aw. rewrite K. symmetry. apply (determined A); [apply De|]. destruct Aw as ((_ & D1) & (_ & D2)). destruct He; subst; auto.
    Qed.
    Lemma stands_and : forall x y e P Q, stands P x -> stands Q y -> ev_and io x y = Ok e -> stands (fun w => P w /\ Q w) e.
    Proof.
      intros x y e P Q (Gx & Nx & Hx) (Gy & Ny & Hy) H. destruct (ev_and_ok io x y e Gx Gy H) as (Ge & K). split; auto. split; [exact (neat_and io nominal (fun _ => True) A x y e H Nx Ny)|]. intros w Aw. rewrite K, (Hx w Aw), (Hy w Aw). tauto.
    Qed.
    Lemma stands_askable : forall P e, stands P e -> askable dlaw nominal s e.
    Proof.
      intros P e (G & Nt & _). destruct (neat_event nominal (fun _ => True) A e G Nt) as (So & _ & Rg). split; auto. split; [|now apply sorts_kinds]. intros w.
      apply (law_null_sub (den_kernel dlaw s W w) (fun w => ~ A w)); [apply surely_usual|]. intros x H K. apply H. auto.
    Qed.
    Lemma stands_prob : forall P e, stands P e -> prob s e = chance s P.
    Proof. intros P e (_ & _ & H). apply (chance_as s W A); auto. apply surely_usual. Qed.
  End Events.

  (** ** C38 *)
  Theorem C38_value : forall s a b r, wf_spe s -> atoms_ok nominal s -> distinct s -> decided s a -> decided s b ->
    mutual_information s a b = Ok r -> r = information s (holds a) (holds b).
  Proof.
    intros s a b r W At Ds Da Db H. unfold SpeOps.mutual_information in H.
    pose proof (stands_pos s a b Da Db a (or_introl eq_refl)) as Sa. pose proof (stands_pos s a b Da Db b (or_intror eq_refl)) as Sb.
    assert (Run : forall e P, stands a b P e -> sat (valid dlaw ident (within s) (fun _ => True) (fun _ => True) (fun _ => True)) (logprob s e) (fun p => toP p = chance s P)).
    { intros e P Se t Ht. pose proof (stands_askable s W a b Da Db P e Se) as (G & Rg & Ke).
      destruct (logprob_ok io po fuel dlaw ident nominal (within s) (within_closed ident s Ds) (fun _ => True) (fun _ => True) (fun _ => True) s e (within_self s) W At G Rg Ke t Ht) as (K1 & K2).
      split; auto. intros p Hp. rewrite (K2 p Hp w0). exact (stands_prob s W a b Da Db P e Se). }
    assert (V0 : valid dlaw ident (within s) (fun _ => True) (fun _ => True) (fun _ => True) Memo) by (repeat split; constructor).
    inv_bind H. inv_bind H. rename r0 into lA, r1 into lB. unfold fresh_run in E, E0.
    apply (proj2 (Run a _ Sa Memo V0)) in E. apply (proj2 (Run b _ Sb Memo V0)) in E0.
    inv_bind H. inv_bind H. rename r0 into lA0, r1 into lB0.
    pose proof (chance_01 s W (holds a)) as Ba. pose proof (chance_01 s W (holds b)) as Bb.
    apply ldiff_sum in E1; [|rewrite lzero_ok, E; lra]. apply ldiff_sum in E2; [|rewrite lzero_ok, E0; lra]. rewrite lzero_ok, E in E1. rewrite lzero_ok, E0 in E2.
    match type of H with fresh_run ?m = _ => assert (Q : sat (valid dlaw ident (within s) (fun _ => True) (fun _ => True) (fun _ => True)) m (fun r => r = information s (holds a) (holds b))) end.
    2: { unfold fresh_run in H. exact (proj2 (Q Memo V0) r H). }
    clear H r. apply sat_bind with (P := fun p => toP p = chance s (fun w => holds a w /\ holds b w)).
    { apply sat_bind with (P := stands a b (fun w => holds a w /\ holds b w)); [|intros e; apply Run]. apply sat_lift. intros e He. eapply stands_and; eauto. }
    intros p11 H11. apply sat_bind with (P := fun p => toP p = chance s (fun w => holds a w /\ ~ holds b w)).
    { apply sat_bind with (P := stands a b (fun w => holds a w /\ ~ holds b w)); [|intros e; apply Run]. apply sat_lift. intros e He. inv_bind He. eapply stands_and; eauto. apply (stands_not s a b Da Db b); auto. }
    intros p10 H10. apply sat_bind with (P := fun p => toP p = chance s (fun w => ~ holds a w /\ holds b w)).
    { apply sat_bind with (P := stands a b (fun w => ~ holds a w /\ holds b w)); [|intros e; apply Run]. apply sat_lift. intros e He. inv_bind He. eapply stands_and; eauto. apply (stands_not s a b Da Db a); auto. }
    intros p01 H01. apply sat_lift. intros r H. inv_bind H. inv_bind H. rename r0 into t, r1 into p00. injection H as <-.
    apply lse_sum in E3. destruct E3 as (_ & E3). cbn [map sumR fold_right] in E3. rewrite H11, H10, H01 in E3.
    pose proof (table_facts s W (holds a) (holds b)) as (T1 & T2 & T3). cbv zeta in T1, T2, T3.
    pose proof (chance_01 s W (fun w => ~ holds a w /\ ~ holds b w)) as B00. apply ldiff_sum in E4; [|rewrite lzero_ok, E3, T1, T2; lra].
    assert (H00 : toP p00 = chance s (fun w => ~ holds a w /\ ~ holds b w)) by (rewrite E4, lzero_ok, E3, T1, T2, T3; ring).
    rewrite <- chance_not in E1, E2 by auto. clear E3 E4.
    assert (T : forall (p x y : lg S) q P Q, toP p = q -> toP x = chance s P -> toP y = chance s Q -> q = chance s (fun w => P w /\ Q w) -> mi_term p x y = cell q (chance s P) (chance s Q)).
    { intros p x y q P Q Hp Hx Hy Hq. unfold mi_term, cell. destruct (lisninf p) eqn:Z.
      - apply lisninf_ok in Z. rewrite Hp in Z. destruct (dec (q = 0)); tauto.
      - apply lisninf_no in Z. destruct (dec (q = 0)) as [|Nq]; [rewrite Hp in Z; lra|]. rewrite Hp, Hx, Hy.
        pose proof (chance_split s W P Q) as K1. pose proof (chance_split s W Q P) as K2. rewrite (chance_swap s Q P) in K2. pose proof (chance_01 s W (fun w => P w /\ ~ Q w)). pose proof (chance_01 s W (fun w => Q w /\ ~ P w)).
        rewrite Hp in Z. unfold Rdiv. assert (0 < chance s P) by lra. assert (0 < chance s Q) by lra. rewrite <- (ln_mult (chance s P)) by auto. pose proof (Rmult_lt_0_compat (chance s P) (chance s Q) ltac:(auto) ltac:(auto)).
        rewrite (ln_mult q) by (auto using Rinv_0_lt_compat). rewrite ln_Rinv by auto. ring. }
    unfold MISpec.information. cbv zeta. cbv beta.
    rewrite (T p11 lA lB _ (holds a) (holds b) H11 E E0 eq_refl), (T p10 lA lB0 _ (holds a) (fun w => ~ holds b w) H10 E E2 eq_refl), (T p01 lA0 lB _ (fun w => ~ holds a w) (holds b) H01 E1 E0 eq_refl), (T p00 lA0 lB0 _ (fun w => ~ holds a w) (fun w => ~ holds b w) H00 E1 E2 eq_refl).
    reflexivity.
  Qed.
  Theorem C38_nonneg : forall s a b r, wf_spe s -> atoms_ok nominal s -> distinct s -> decided s a -> decided s b -> mutual_information s a b = Ok r -> 0 <= r.
  Proof. intros s a b r W At Ds Da Db H. rewrite (C38_value s a b r) by auto. now apply information_bounds. Qed.
  Theorem C38_symmetric : forall s a b r t, wf_spe s -> atoms_ok nominal s -> distinct s -> decided s a -> decided s b ->
    mutual_information s a b = Ok r -> mutual_information s b a = Ok t -> r = t.
  Proof. intros s a b r t W At Ds Da Db H H'. rewrite (C38_value s a b r), (C38_value s b a t) by auto. now apply information_sym. Qed.
  (** zero exactly for independent events *)
  Theorem C38_independent : forall s a b r, wf_spe s -> atoms_ok nominal s -> distinct s -> decided s a -> decided s b ->
    mutual_information s a b = Ok r -> (r = 0 <-> independent dlaw s (holds a) (holds b)).
  Proof. intros s a b r W At Ds Da Db H. rewrite (C38_value s a b r) by auto. now apply information_bounds. Qed.
  (** events that are almost surely equivalent are interchangeable *)
  Theorem C38_equivalent : forall s a b a' b' r t, wf_spe s -> atoms_ok nominal s -> distinct s -> decided s a -> decided s b -> decided s a' -> decided s b' ->
    surely s (fun w => (holds a w <-> holds a' w) /\ (holds b w <-> holds b' w)) ->
    mutual_information s a b = Ok r -> mutual_information s a' b' = Ok t -> r = t.
  Proof.
    intros s a b a' b' r t W At Ds Da Db Da' Db' Sq H H'. rewrite (C38_value s a b r), (C38_value s a' b' t) by auto. eapply information_as; [auto|exact Sq| |]; intros w (K1 & K2); auto.
  Qed.
  (** and the events have no more information about each other than about themselves *)
  Theorem C38_bounded : forall s a b r, wf_spe s -> atoms_ok nominal s -> distinct s -> decided s a -> decided s b ->
    mutual_information s a b = Ok r -> r <= uncertainty dlaw s (holds a) /\ r <= uncertainty dlaw s (holds b).
  Proof.
    intros s a b r W At Ds Da Db H. rewrite (C38_value s a b r) by auto. split; [now apply information_self|]. rewrite information_sym by auto. now apply information_self.
  Qed.
  Notation valid_memo s := (valid dlaw ident (within s) (fun _ => True) (fun _ => True) (fun _ => True)).
  Lemma mi_returns : forall s a b na nb c11 c10 c01, wf_spe s -> atoms_ok nominal s -> distinct s -> decided s a -> decided s b ->
    ev_not io a = Ok na -> ev_not io b = Ok nb -> ev_and io a b = Ok c11 -> ev_and io a nb = Ok c10 -> ev_and io na b = Ok c01 ->
    (forall e m, In e [a; b; c11; c10; c01] -> valid_memo s m -> exists p, fst (logprob s e m) = Ok p) -> exists r, mutual_information s a b = Ok r.
  Proof.
    intros s a b na nb c11 c10 c01 W At Ds Da Db Hna Hnb H11 H10 H01 Ans. unfold SpeOps.mutual_information.
    pose proof (stands_pos s a b Da Db a (or_introl eq_refl)) as Sa. pose proof (stands_pos s a b Da Db b (or_intror eq_refl)) as Sb.
    pose proof (stands_not s a b Da Db a na (or_introl eq_refl) Hna) as Sna. pose proof (stands_not s a b Da Db b nb (or_intror eq_refl) Hnb) as Snb.
    assert (Run : forall e P, stands a b P e -> sat (valid dlaw ident (within s) (fun _ => True) (fun _ => True) (fun _ => True)) (logprob s e) (fun p => toP p = chance s P)).
    { intros e P Se t Ht. pose proof (stands_askable s W a b Da Db P e Se) as (G & Rg & Ke).
      destruct (logprob_ok io po fuel dlaw ident nominal (within s) (within_closed ident s Ds) (fun _ => True) (fun _ => True) (fun _ => True) s e (within_self s) W At G Rg Ke t Ht) as (K1 & K2).
      split; auto. intros p Hp. rewrite (K2 p Hp w0). exact (stands_prob s W a b Da Db P e Se). }
    assert (V0 : valid dlaw ident (within s) (fun _ => True) (fun _ => True) (fun _ => True) Memo) by (repeat split; constructor).
    assert (Ask : forall e P m, In e [a; b; c11; c10; c01] -> stands a b P e -> valid dlaw ident (within s) (fun _ => True) (fun _ => True) (fun _ => True) m ->
      exists p m', logprob s e m = (Ok p, m') /\ toP p = chance s P /\ valid dlaw ident (within s) (fun _ => True) (fun _ => True) (fun _ => True) m').
    { intros e P m He Se Vm. destruct (Ans e m He Vm) as (p & Hp). destruct (Run e P Se m Vm) as (V' & K). exists p, (snd (logprob s e m)). split; [destruct (logprob s e m); cbn in *; now subst|]. auto. }
    destruct (Ask a _ Memo (or_introl eq_refl) Sa V0) as (lA & mA & EA & PA & _). destruct (Ask b _ Memo (or_intror (or_introl eq_refl)) Sb V0) as (lB & mB & EB & PB & _).
    unfold fresh_run at 1 2. rewrite EA, EB. cbn [fst bind]. pose proof (chance_01 s W (holds a)) as Ba. pose proof (chance_01 s W (holds b)) as Bb.
    destruct (ldiff_ok S lzero lA) as (lA0 & -> & _); [rewrite lzero_ok, PA; lra|]. destruct (ldiff_ok S lzero lB) as (lB0 & -> & _); [rewrite lzero_ok, PB; lra|]. cbn [bind].
    destruct (Ask c11 (fun w => holds a w /\ holds b w) Memo) as (p11 & m1 & E1 & P1 & V1); auto; [simpl; tauto|eapply stands_and; eauto|].
    destruct (Ask c10 (fun w => holds a w /\ ~ holds b w) m1) as (p10 & m2 & E2 & P2 & V2); auto; [simpl; tauto|eapply stands_and; eauto|].
    destruct (Ask c01 (fun w => ~ holds a w /\ holds b w) m2) as (p01 & m3 & E3 & P3 & V3); auto; [simpl; tauto|eapply stands_and; eauto|].
    rewrite Hna, Hnb. cbn [bind]. unfold fresh_run. rewrite H11, H10, H01. unfold mbind, lift. rewrite E1, E2, E3. cbn [fst].
    destruct (lse_ok S [p11; p10; p01]) as (t & -> & Pt); [discriminate|]. cbn [map sumR fold_right] in Pt. rewrite P1, P2, P3 in Pt. cbn [bind].
    pose proof (table_facts s W (holds a) (holds b)) as (T1 & T2 & T3). cbv zeta in T1, T2, T3. pose proof (chance_01 s W (fun w => ~ holds a w /\ ~ holds b w)) as B00.
    destruct (ldiff_ok S lzero t) as (p00 & -> & _); [rewrite lzero_ok, Pt, T1, T2; lra|]. cbn [bind]. eauto.
  Qed.
  (** it returns whenever logprob does *)
  Theorem C38_returns : forall s a b na nb c11 c10 c01, wf_spe s -> atoms_ok nominal s -> distinct s -> decided s a -> decided s b ->
    ev_not io a = Ok na -> ev_not io b = Ok nb -> ev_and io a b = Ok c11 -> ev_and io a nb = Ok c10 -> ev_and io na b = Ok c01 ->
    (forall e m, In e [a; b; c11; c10; c01] -> exists p, fst (logprob s e m) = Ok p) -> exists r, mutual_information s a b = Ok r.
  Proof. intros s a b na nb c11 c10 c01 W At Ds Da Db Hna Hnb H11 H10 H01 Ans. apply (mi_returns s a b na nb c11 c10 c01); auto. Qed.
End Properties.

Definition all_mi_properties := (@C38_value, @C38_nonneg, @C38_symmetric, @C38_independent, @C38_equivalent, @C38_bounded, @C38_returns).
Print Assumptions all_mi_properties.
