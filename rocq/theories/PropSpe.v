(** Properties C21 to C25 and C30: sum-product expressions answer queries correctly
    (src/spe.py).  The specification is in SpeSpec.v. *)
From Coq Require Import List Bool String Reals Lra Lia ZArith QArith Qreals FunctionalExtensionality Permutation.
From Verif Require Import Base Num Sets SetSpec SetIv SetProofs SetOr SetOps SetAlg SetBuilt
  Poly Trans TransSpec TransFacts PolyProofs InvProofs InvMain EvProofs ArithProofs
  Dnf DnfSpec DnfProofs DnfUnion Logs Spe SpeSpec SpeFacts SpeRect LeafProofs LeafEvents LeafCond SpeCons LeafGiven MemoProofs NormSorts LogprobProofs LogprobTop SpeEq SimplifyProofs CondTypes CondProofs CondTop.
Import ListNotations.
Local Open Scope R_scope.

(** ** Events as functions of the variables *)
Section Univariate.
  Context {N : numsys}.
  Notation tr := (tr N).
  (** each literal is about one variable: Python's transforms have one symbol *)
  Definition univariate (e : tr) : Prop := Forall (fun l => exists x, only x l) (lits e).
  Lemma lit_simple : forall (t : tr) (P : asg -> Prop) x, only x t -> (forall w w', (forall y, In y (symbols t) -> w y = w' y) -> (P w <-> P w')) -> simple (ind P).
  Proof.
    intros t P x O H. apply (simple_ind_ext (fun w => P (fun _ => w x))).
    - intros w. apply H. intros y Hy. now rewrite (O y Hy).
    - apply (simple_ind_var x (fun v => P (fun _ => v))).
  Qed.
  Lemma event_simple : forall e : tr, gev e -> univariate e -> simple (ind (holds e)).
  Proof.
    induction e using tr_ind'; intros (G & Ev) Un; try discriminate.
    - unfold univariate in Un. cbn [lits] in Un. inversion Un as [|? ? (x & O) _]; subst. apply (lit_simple (EBasic k e v) _ x O). intros w w' E. unfold holds. rewrite (teval_agree (EBasic k e v) w w'); tauto.
    - apply (simple_ind_ext (fun w => exists a, In a l /\ holds a w)); [intros w; symmetry; apply holds_or|]. pose proof (gev_or _ (conj G Ev)) as (_ & Gl). unfold univariate in Un. cbn [lits] in Un. apply lits_list in Un. rewrite Forall_forall in *.
      apply simple_ind_ex. intros a Ha. now apply H; auto; apply Un.
    - apply (simple_ind_ext (fun w => forall a, In a l -> holds a w)); [intros w; symmetry; apply holds_and|]. pose proof (gev_and _ (conj G Ev)) as (_ & Gl). unfold univariate in Un. cbn [lits] in Un. apply lits_list in Un. rewrite Forall_forall in *.
      apply simple_ind_all. intros a Ha. now apply H; auto; apply Un.
  Qed.
  Lemma regular_agree : forall (t : tr) b w w', good t -> (forall x, In x (symbols t) -> w x = w' x) -> regular b t w -> regular b t w'.
  Proof.
    induction t using tr_ind'; intros b0 w w' G E Rg; cbn [regular good] in *; auto; try (apply (IHt _ w w'); tauto).
    - destruct Rg as (R1 & R2). split; [apply (IHt b0 w w'); tauto|]. rewrite <- (teval_agree t w w'); tauto.
    - destruct Rg as (R1 & R2), G as (_ & G). rewrite Forall_forall in H.
      assert (S1 : forall p, In p l -> forall x, In x (symbols (fst p)) -> w x = w' x) by (intros p Hp x Hx; apply E; cbn [symbols]; apply in_sunions; exists (symbols (fst p)); split; auto; apply in_map_iff; eauto).
      assert (S2 : forall p, In p l -> forall x, In x (symbols (snd p)) -> w x = w' x) by (intros p Hp x Hx; apply E; pose proof (TransFacts.All_In _ _ _ _ G Hp) as (_ & _ & _ & _ & I); now apply I).
      split.
      + refine (All_impl _ _ _ _ _ R1). intros p Hp (K1 & K2). pose proof (TransFacts.All_In _ _ _ _ G Hp) as (G1 & _ & G2 & _ & _). destruct (H p Hp) as (H1 & H2). exact (conj (H1 b0 w w' G1 (S1 p Hp) K1) (H2 b0 w w' G2 (S2 p Hp) K2)).
      + refine (FOP_weaken _ _ _ _ _ R2). intros p q Hp Hq K (K1 & K2). pose proof (TransFacts.All_In _ _ _ _ G Hp) as (_ & _ & G1 & _ & _). pose proof (TransFacts.All_In _ _ _ _ G Hq) as (_ & _ & G2 & _ & _).
        apply K. unfold holds in *. rewrite (teval_agree (snd p) w w' G1 (S2 p Hp)), (teval_agree (snd q) w w' G2 (S2 q Hq)). auto.
    - destruct Rg as (R1 & R2). split; [apply (IHt (hasinf v) w w'); auto; destruct k; tauto|]. intros Hk. destruct (R2 Hk) as [K|[K|K]]; auto. right; right. intros x Hx. rewrite <- E by auto. auto.
    - destruct G as (_ & G). rewrite Forall_forall in H. refine (All_impl _ _ _ _ _ Rg). intros a Ha K. pose proof (TransFacts.All_In _ _ _ _ G Ha) as (G1 & _). apply (H a Ha b0 w w'); auto.
      intros x Hx. apply E. cbn [symbols]. apply in_sunions. exists (symbols a). split; auto. now apply in_map.
    - destruct G as (_ & G). rewrite Forall_forall in H. refine (All_impl _ _ _ _ _ Rg). intros a Ha K. pose proof (TransFacts.All_In _ _ _ _ G Ha) as (G1 & _). apply (H a Ha b0 w w'); auto.
      intros x Hx. apply E. cbn [symbols]. apply in_sunions. exists (symbols a). split; auto. now apply in_map.
  Qed.
  Lemma regular_simple : forall (e : tr) b, gev e -> univariate e -> simple (ind (regular b e)).
  Proof.
    intros e b G Un. apply (simple_ind_ext (fun w => forall l, In l (lits e) -> regular b l w)).
    - intros w. rewrite (regular_lits e b w G), Forall_forall. tauto.
    - apply simple_ind_all. intros l Hl. unfold univariate in Un. rewrite Forall_forall in Un. destruct (Un l Hl) as (x & O). pose proof (gev_lits e G) as Gl. rewrite Forall_forall in Gl. destruct (Gl l Hl) as (Gl' & _).
      apply (lit_simple l _ x O). intros w w' E. split; apply regular_agree; try apply Gl'; auto. intros y Hy. symmetry. auto.
  Qed.
End Univariate.

Section Properties.
  Context {N : numsys} {S : logsys} {D : distsys N S} (io : iterorder N) (so : strorder) (po : polyoracle N) (fuel : nat).
  (** the distributions of the SciPy objects; equal objects have equal distributions *)
  Context (dlaw : dist D -> (fval -> R) -> R) (Ed : eq_dist dlaw).
  (** id() and hash() *)
  Context (ident : spe D -> nat) (hash : spe D -> Z).
  (** the variables that take strings, and the environments of the atoms *)
  Context (nominal : string -> bool) (envof : string -> tenv (N:=N)).
  Notation spe := (spe D).
  Notation tr := (tr N).
  Notation prob := (prob dlaw).
  Notation wf_spe := (wf_spe dlaw).
  Notation wf_leaf := (wf_leaf dlaw).
  Notation surely := (surely dlaw).
  Notation typed := (typed (D:=D) nominal envof).
  Notation logprob := (logprob io po fuel ident).
  Notation condition := (condition io so po fuel ident hash).

  (** the expressions inside an expression, and the answer with a fresh memo table *)
  Inductive within (s : spe) : spe -> Prop :=
  | within_self : within s s
  | within_sum : forall l c, within s (SumSPE l) -> In c l -> within s (fst c)
  | within_prod : forall l c, within s (ProductSPE l) -> In c l -> within s c.
  Definition distinct (s : spe) : Prop := forall a b, within s a -> within s b -> ident a = ident b -> a = b.
  Definition fresh {A} (m : M (N:=N) (D:=D) A) : res A := fst (m Memo).
  Lemma within_closed : forall s, distinct s -> closed ident (within s).
  Proof. intros s H. split; [|split]; auto; intros l c Hl Hc; [eapply within_sum|eapply within_prod]; eauto. Qed.
  Notation valid U := (valid dlaw ident U (Forall (centry_ok dlaw ident nominal envof U)) (fun _ => True) (fun _ => True)).
  Lemma fresh_valid : forall U, valid U Memo.
  Proof. intros U. repeat split; constructor. Qed.

  (** ** Events that can be asked about *)
  (** The transforms of the event are almost surely used inside their domains, and string sets
      are used for nominal variables only. *)
  Definition askable (s : spe) (e : tr) : Prop := gev e /\ surely s (regular true e) /\ event_kinds nominal e.

  (** ** C21: leaves *)
  (** with memo=False *)
  Theorem C21_leaf : forall s e p, wf_leaf s -> gev e -> surely s (regular true e) -> (atomic s -> num_event e) ->
    leaf_logprob io po fuel s e = Ok p -> toP p = prob s e.
  Proof. intros s e p W G Rg Na H. exact (leaf_logprob_ok io po fuel dlaw s e p W G Rg Na H w0). Qed.
  (** with a memo table *)
  Theorem C21_leaf_memo : forall s e p, is_leaf s = true -> wf_leaf s -> atoms_ok nominal s -> askable s e ->
    fresh (logprob s e) = Ok p -> toP p = prob s e.
  Proof.
    intros s e p L W A (G & Rg & Ke) H. assert (Ds : distinct s).
    { assert (K : forall a, within s a -> a = s) by (induction 1 as [|l c Hw IH Hc|l c Hw IH Hc]; auto; rewrite <- IH in L; discriminate). intros a b Ha Hb _. now rewrite (K a Ha), (K b Hb). }
    destruct (logprob_ok io po fuel dlaw ident nominal (within s) (within_closed s Ds) (fun _ => True) (fun _ => True) (fun _ => True) s e (within_self s) (proj2 (wf_leaf_spe dlaw s L) W) A G Rg Ke Memo) as (_ & K);
      [repeat split; constructor|]. exact (K p H w0).
  Qed.

  (** ** C22: every expression *)
  Theorem C22_logprob : forall s e p, wf_spe s -> atoms_ok nominal s -> distinct s -> askable s e -> fresh (logprob s e) = Ok p -> toP p = prob s e.
  Proof.
    intros s e p W A Ds (G & Rg & Ke) H.
    destruct (logprob_ok io po fuel dlaw ident nominal (within s) (within_closed s Ds) (fun _ => True) (fun _ => True) (fun _ => True) s e (within_self s) W A G Rg Ke Memo) as (_ & K);
      [repeat split; constructor|]. exact (K p H w0).
  Qed.
  (** With any memo table that earlier queries left behind: see C30. *)

  (** ** C23: the laws of probability *)
  Section Laws.
    Context (s : spe) (W : wf_spe s) (A : atoms_ok nominal s) (Ds : distinct s).
    Let L := den_kernel dlaw s W w0.
    Theorem C23_bounds : forall e p, askable s e -> fresh (logprob s e) = Ok p -> 0 <= toP p <= 1.
    Proof. intros e p Ae H. rewrite (C22_logprob s e p) by auto. apply (law_01 L). Qed.
    Theorem C23_equivalent : forall a b p q, askable s a -> askable s b -> fresh (logprob s a) = Ok p -> fresh (logprob s b) = Ok q ->
      surely s (fun w => holds a w <-> holds b w) -> toP p = toP q.
    Proof.
      intros a b p q Aa Ab Ha Hb E. rewrite (C22_logprob s a p), (C22_logprob s b q) by auto. apply (law_as L _ _ _ (E w0)); auto with bnd. intros w Hw. apply ind_eq. destruct (dec (holds a w <-> holds b w)); tauto.
    Qed.
    Theorem C23_implied : forall a b p q, askable s a -> askable s b -> fresh (logprob s a) = Ok p -> fresh (logprob s b) = Ok q ->
      surely s (fun w => holds a w -> holds b w) -> toP p <= toP q.
    Proof.
      intros a b p q Aa Ab Ha Hb E. rewrite (C22_logprob s a p), (C22_logprob s b q) by auto. unfold SpeSpec.prob, Pr.
      rewrite (law_as L (fun w => ~ (holds a w -> holds b w)) (ind (holds a)) (ind (fun w => holds a w /\ holds b w)) (E w0)); auto with bnd.
      - apply (law_mono L); auto with bnd. intros w. unfold ind. destruct (dec (holds a w /\ holds b w)) as [(_ & K)|K], (dec (holds b w)); try tauto; lra.
      - intros w Hw. apply ind_eq. destruct (dec (holds a w -> holds b w)); tauto.
    Qed.
    Theorem C23_complement : forall e n p q, askable s e -> askable s n -> ev_not io e = Ok n -> surely s (fun w => teval e w <> None) ->
      fresh (logprob s e) = Ok p -> fresh (logprob s n) = Ok q -> toP p + toP q = 1.
    Proof.
      intros e n p q Ae An Hn Df He Hq. rewrite (C22_logprob s e p), (C22_logprob s n q) by auto. unfold SpeSpec.prob, Pr. rewrite <- (law_plus L) by auto with bnd. rewrite <- (law_one L).
      apply (law_as L _ _ _ (Df w0)); auto with bnd. intros w Hw. destruct (ev_not_ok io e n (proj1 Ae) Hn) as (_ & K).
      assert (Hd : teval e w <> None) by (destruct (dec (teval e w <> None)); tauto).
      destruct (defined_cases e w (proj2 (proj1 Ae)) Hd) as [T|F].
      - rewrite (ind_true _ (holds e)), (ind_false _ (holds n)); auto; [lra|]. rewrite K. intros F. exact (not_both e w T F).
      - rewrite (ind_false _ (holds e)), (ind_true _ (holds n)); [lra|now apply K|]. intros T. exact (not_both e w T F).
    Qed.
    Theorem C23_disjoint : forall a b c p q r, askable s a -> askable s b -> askable s c -> ev_or io a b = Ok c -> surely s (fun w => ~ (holds a w /\ holds b w)) ->
      fresh (logprob s a) = Ok p -> fresh (logprob s b) = Ok q -> fresh (logprob s c) = Ok r -> toP r = toP p + toP q.
    Proof.
      intros a b c p q r Aa Ab Ac Hc Dj Hp Hq Hr. rewrite (C22_logprob s a p), (C22_logprob s b q), (C22_logprob s c r) by auto. unfold SpeSpec.prob, Pr. rewrite <- (law_plus L) by auto with bnd.
      apply (law_as L _ _ _ (Dj w0)); auto with bnd. intros w Hw. destruct (ev_or_ok io a b c (proj1 Aa) (proj1 Ab) Hc) as (_ & K). rewrite <- ind_or_disj by tauto. apply ind_eq. apply K.
    Qed.
    Theorem C23_inclusion_exclusion : forall a b c d p q r t, askable s a -> askable s b -> askable s c -> askable s d -> ev_or io a b = Ok c -> ev_and io a b = Ok d ->
      fresh (logprob s a) = Ok p -> fresh (logprob s b) = Ok q -> fresh (logprob s c) = Ok r -> fresh (logprob s d) = Ok t -> toP r + toP t = toP p + toP q.
    Proof.
      intros a b c d p q r t Aa Ab Ac Ad Hc Hd Hp Hq Hr Ht. rewrite (C22_logprob s a p), (C22_logprob s b q), (C22_logprob s c r), (C22_logprob s d t) by auto. unfold SpeSpec.prob, Pr. rewrite <- !(law_plus L) by auto with bnd.
      apply (law_ext (I:=fun g => den dlaw s g w0)). intros w. destruct (ev_or_ok io a b c (proj1 Aa) (proj1 Ab) Hc) as (_ & K1). destruct (ev_and_ok io a b d (proj1 Aa) (proj1 Ab) Hd) as (_ & K2). specialize (K1 w). specialize (K2 w).
      unfold ind. destruct (dec (holds a w)), (dec (holds b w)), (dec (holds c w)), (dec (holds d w)); try tauto; lra.
    Qed.
  End Laws.

  (** ** C24: conditioning is Bayes' rule *)
  (** for conditioning, each variable is used at one sort only and belongs to the expression *)
  Definition conditionable (s : spe) (e : tr) : Prop :=
    gev e /\ surely s (regular true e) /\ event_sorts nominal e /\ forall x, In x (symbols e) -> vars s x.
  Lemma conditionable_askable : forall s e, conditionable s e -> askable s e.
  Proof. intros s e (G & Rg & Se & _). split; auto. split; auto. now apply sorts_kinds. Qed.
  Lemma fresh_condition : forall s e t, wf_spe s -> typed s -> distinct s -> conditionable s e -> fresh (condition s e) = Ok t -> cond_ok dlaw nominal envof s (holds e) t.
  Proof.
    intros s e t W T Ds (G & Rg & Se & Sy) H.
    destruct (condition_ok io so po fuel dlaw Ed ident hash nominal envof (within s) (within_closed s Ds) (fun _ => True) (fun _ => True) s e (within_self s) W T G Rg Se Sy Memo (fresh_valid _)) as (_ & K). now apply K.
  Qed.
  (** the result is a well-formed expression on the same variables; it is the conditional distribution *)
  Theorem C24_given : forall s e t, wf_spe s -> typed s -> distinct s -> conditionable s e -> fresh (condition s e) = Ok t ->
    wf_spe t /\ typed t /\ (forall x, vars t x <-> vars s x) /\ given dlaw s (holds e) t.
  Proof. intros s e t W T Ds Ce H. destruct (fresh_condition s e t W T Ds Ce H) as (A & B & C & _ & E). auto. Qed.
  (** what is almost sure stays almost sure *)
  Lemma given_surely : forall s F t (P : asg -> Prop), wf_spe s -> cond_ok dlaw nominal envof s F t -> simple (ind P) -> surely s P -> surely t P.
  Proof.
    intros s F t P W (Wt & _ & _ & Pos & Gv) Sp H w. specialize (Gv (ind (fun a => ~ P a)) (simple_ind_not _ Sp) w).
    rewrite (law_null (den_kernel dlaw s W w) (fun a => ~ P a) (fun w => ind (fun a => ~ P a) w * ind F w)) in Gv; auto with bnd.
    - apply Rmult_integral in Gv. destruct Gv as [Gv|Gv]; auto. specialize (Pos w). lra.
    - intros a Ha. rewrite (ind_false _ (fun a => ~ P a)) by auto. ring.
  Qed.
  Lemma askable_given : forall s F t e, wf_spe s -> cond_ok dlaw nominal envof s F t -> univariate e -> askable s e -> askable t e.
  Proof. intros s F t e W C Un (G & Rg & Ke). split; auto. split; auto. apply (given_surely s F t); auto. now apply regular_simple. Qed.
  (** P_t(a) * P_s(e) = P_s(a & e), for the probabilities that logprob reports *)
  Theorem C24_bayes : forall s e t a c p q r, wf_spe s -> typed s -> distinct s -> distinct t -> conditionable s e -> askable s a -> univariate a -> ev_and io a e = Ok c -> askable s c ->
    fresh (condition s e) = Ok t -> fresh (logprob t a) = Ok p -> fresh (logprob s e) = Ok q -> fresh (logprob s c) = Ok r -> toP p * toP q = toP r.
  Proof.
    intros s e t a c p q r W T Ds Dt Ce Aa Un Hc Ac Ht Hp Hq Hr. pose proof (fresh_condition s e t W T Ds Ce Ht) as K. pose proof K as (Wt & _ & Tt & _ & Gv).
    rewrite (C22_logprob t a p), (C22_logprob s e q), (C22_logprob s c r); auto using conditionable_askable; try (now apply typed_atoms with (envof := envof)); [|exact (askable_given s (holds e) t a W K Un Aa)].
    unfold SpeSpec.prob, Pr. rewrite (Gv (ind (holds a))) by (apply event_simple; auto; apply Aa). f_equal. extensionality w. destruct (ev_and_ok io a e c (proj1 Aa) (proj1 Ce) Hc) as (_ & E). rewrite <- ind_and. symmetry. apply ind_eq. apply E.
  Qed.
  (** conditioning twice is conditioning on both events *)
  Theorem C24_twice : forall s e f g t u v, wf_spe s -> typed s -> distinct s -> distinct t -> conditionable s e -> conditionable s f -> conditionable s g -> univariate f -> ev_and io e f = Ok g ->
    fresh (condition s e) = Ok t -> fresh (condition t f) = Ok u -> fresh (condition s g) = Ok v -> same_law dlaw u v.
  Proof.
    intros s e f g t u v W T Ds Dt Ce Cf Cg Un Hg Ht Hu Hv. pose proof (fresh_condition s e t W T Ds Ce Ht) as K. pose proof K as (Wt & Vt & Tt & P1 & G1).
    assert (Cf' : conditionable t f).
    { destruct Cf as (Gf & Rf & Sf & Vf). split; auto. split; [|split; auto].
      - apply (given_surely s (holds e) t); auto. now apply regular_simple.
      - intros x Hx. apply Vt. auto. }
    destruct (fresh_condition t f u Wt Tt Dt Cf' Hu) as (_ & _ & _ & P2 & G2). destruct (fresh_condition s g v W T Ds Cg Hv) as (_ & _ & _ & P3 & G3).
    destruct (ev_and_ok io e f g (proj1 Ce) (proj1 Cf) Hg) as (_ & E). pose proof (event_simple f (proj1 Cf) Un) as Sf.
    intros h Sh w. specialize (P1 w). specialize (P2 w). specialize (P3 w). specialize (G2 h Sh w). specialize (G3 h Sh w). pose proof (G1 _ (simple_mult _ _ Sh Sf) w) as G4. pose proof (G1 _ Sf w) as G5. cbv beta in G4, G5.
    assert (Ei : forall k a, k a * ind (holds f) a * ind (holds e) a = k a * ind (holds g) a).
    { intros k a. rewrite Rmult_assoc, <- ind_and. f_equal. apply ind_eq. rewrite E. tauto. }
    assert (E4 : den dlaw s (fun a => h a * ind (holds f) a * ind (holds e) a) w = den dlaw s (fun a => h a * ind (holds g) a) w) by (f_equal; extensionality a; apply Ei).
    assert (E5 : den dlaw s (fun a => ind (holds f) a * ind (holds e) a) w = den dlaw s (ind (holds g)) w).
    { f_equal. extensionality a. specialize (Ei (fun _ => 1) a). rewrite !Rmult_1_l in Ei. exact Ei. }
    rewrite E4 in G4. rewrite E5 in G5. rewrite <- G4, <- G2, <- G5 in G3. apply (Rmult_eq_reg_r (den dlaw t (ind (holds f)) w * den dlaw s (ind (holds e)) w)); [lra|]. apply Rmult_integral_contrapositive. lra.
  Qed.
  (** conditioning on a certain event changes nothing *)
  Theorem C24_certain : forall s e t, wf_spe s -> typed s -> distinct s -> conditionable s e -> surely s (holds e) -> fresh (condition s e) = Ok t -> same_law dlaw s t.
  Proof.
    intros s e t W T Ds Ce Sure Ht. destruct (fresh_condition s e t W T Ds Ce Ht) as (_ & _ & _ & _ & Gv). intros h Sh w. specialize (Gv h Sh w). pose proof (den_kernel dlaw s W w) as L.
    assert (A : forall k, bnd k -> den dlaw s (fun a => k a * ind (holds e) a) w = den dlaw s k w).
    { intros k Bk. apply (law_as L _ _ _ (Sure w)); auto with bnd. intros a Ha. rewrite ind_true; [ring|]. destruct (dec (holds e a)); tauto. }
    rewrite A in Gv by (now apply simple_bnd). assert (E : den dlaw s (ind (holds e)) w = 1).
    { rewrite <- (law_one L). rewrite <- (A (fun _ => 1)) by auto with bnd. f_equal. extensionality a. ring. }
    rewrite E, Rmult_1_r in Gv. auto.
  Qed.

  (** ** C25: impossible events *)
  (** if condition returns, the event has positive probability; on a null event it raises *)
  Theorem C25_null_partial : forall s e, wf_spe s -> typed s -> distinct s -> conditionable s e -> prob s e = 0 -> exists x, fresh (condition s e) = Raise x.
  Proof.
    intros s e W T Ds Ce Z. destruct (fresh (condition s e)) as [t|x] eqn:E; [|eauto]. destruct (fresh_condition s e t W T Ds Ce E) as (_ & _ & _ & P & _). specialize (P w0). unfold SpeSpec.prob, Pr in Z. lra.
  Qed.

  (** ** C30: histories of queries through one memo table *)
  Inductive query := QLogprob (s : spe) (e : tr) | QCondition (s : spe) (e : tr).
  Definition ask (q : query) (m : memo (D:=D)) : memo := match q with QLogprob s e => snd (logprob s e m) | QCondition s e => snd (condition s e m) end.
  Definition table (h : list query) : memo := fold_left (fun m q => ask q m) h Memo.
  (** the expressions asked about, and all expressions inside them, have distinct identities *)
  Definition fine (U : spe -> Prop) (q : query) : Prop :=
    match q with
    | QLogprob s e => U s /\ wf_spe s /\ atoms_ok nominal s /\ askable s e
    | QCondition s e => U s /\ wf_spe s /\ typed s /\ conditionable s e
    end.
  Section History.
    Context (U : spe -> Prop) (Uc : closed ident U).
    Lemma logprob_valid : forall s e m, U s -> wf_spe s -> atoms_ok nominal s -> askable s e -> valid U m ->
      valid U (snd (logprob s e m)) /\ forall p, fst (logprob s e m) = Ok p -> toP p = prob s e.
    Proof.
      intros s e m Us W A (G & Rg & Ke) V.
      destruct (logprob_ok io po fuel dlaw ident nominal U Uc (Forall (centry_ok dlaw ident nominal envof U)) (fun _ => True) (fun _ => True) s e Us W A G Rg Ke m V) as (V' & K).
      split; auto. intros p Hp. exact (K p Hp w0).
    Qed.
    Lemma condition_valid : forall s e m, U s -> wf_spe s -> typed s -> conditionable s e -> valid U m ->
      valid U (snd (condition s e m)) /\ forall t, fst (condition s e m) = Ok t -> cond_ok dlaw nominal envof s (holds e) t.
    Proof.
      intros s e m Us W T (G & Rg & Se & Sy) V.
      exact (condition_ok io so po fuel dlaw Ed ident hash nominal envof U Uc (fun _ => True) (fun _ => True) s e Us W T G Rg Se Sy m V).
    Qed.
    Lemma table_valid : forall h, Forall (fine U) h -> valid U (table h).
    Proof.
      intros h F. unfold table. pose proof (fresh_valid U) as V. revert V. generalize (Memo (D:=D) (N:=N) (S:=S)). induction F as [|q h Fq F IH]; intros m V; cbn [fold_left]; auto. apply IH.
      destruct q as [s e|s e]; cbn [ask]; cbn in Fq; destruct Fq as (A & B & C & E); [now apply logprob_valid|now apply condition_valid].
    Qed.
    (** an answer computed after any history is the right one *)
    Theorem C30_logprob : forall h s e p, Forall (fine U) h -> U s -> wf_spe s -> atoms_ok nominal s -> askable s e ->
      fst (logprob s e (table h)) = Ok p -> toP p = prob s e.
    Proof. intros h s e p F Us W A Ae. apply logprob_valid; auto. now apply table_valid. Qed.
    Theorem C30_condition : forall h s e t, Forall (fine U) h -> U s -> wf_spe s -> typed s -> conditionable s e ->
      fst (condition s e (table h)) = Ok t -> wf_spe t /\ typed t /\ (forall x, vars t x <-> vars s x) /\ given dlaw s (holds e) t.
    Proof. intros h s e t F Us W T Ce H. destruct (condition_valid s e (table h)) as (_ & K); auto; [now apply table_valid|]. destruct (K t H) as (A & B & C & _ & E). auto. Qed.
    (** so it agrees with the answer of a fresh table *)
    Theorem C30_logprob_fresh : forall h s e p q, Forall (fine U) h -> U s -> wf_spe s -> atoms_ok nominal s -> askable s e ->
      fst (logprob s e (table h)) = Ok p -> fresh (logprob s e) = Ok q -> toP p = toP q.
    Proof. intros h s e p q F Us W A Ae Hp Hq. rewrite (C30_logprob h s e p), (C30_logprob [] s e q); auto. Qed.
    Theorem C30_condition_fresh : forall h s e t u, Forall (fine U) h -> U s -> wf_spe s -> typed s -> conditionable s e ->
      fst (condition s e (table h)) = Ok t -> fresh (condition s e) = Ok u -> same_law dlaw t u.
    Proof.
      intros h s e t u F Us W T Ce Ht Hu. destruct (condition_valid s e (table h)) as (_ & K); auto; [now apply table_valid|]. destruct (K t Ht) as (_ & _ & _ & P & G1).
      destruct (condition_valid s e Memo Us W T Ce (fresh_valid U)) as (_ & K'). destruct (K' u Hu) as (_ & _ & _ & _ & G2). intros f Sf w. specialize (G1 f Sf w). rewrite <- (G2 f Sf w) in G1. specialize (P w). apply Rmult_eq_reg_r in G1; [auto|lra].
    Qed.
  End History.
End Properties.

Definition all_spe_properties := (@C21_leaf, @C21_leaf_memo, @C22_logprob, @C23_bounds, @C23_equivalent, @C23_implied, @C23_complement, @C23_disjoint, @C23_inclusion_exclusion,
  @C24_given, @C24_bayes, @C24_twice, @C24_certain, @C25_null_partial, @C30_logprob, @C30_condition, @C30_logprob_fresh, @C30_condition_fresh).
Print Assumptions all_spe_properties.
