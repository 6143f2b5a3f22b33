(** Properties C36 and C37: densities and constraining (src/spe.py), and the parts of C30 and C32
    about them.  The specification is in SpeSpec.v and DensSpec.v. *)
From Coq Require Import List Bool String Reals Lra Lia ZArith QArith Qreals FunctionalExtensionality Permutation.
From Verif Require Import Base Num Sets SetSpec SetIv SetProofs SetOr SetOps SetAlg SetBuilt
  Poly Trans TransSpec TransFacts PolyProofs InvProofs InvMain EvProofs ArithProofs
  Dnf DnfSpec DnfProofs DnfUnion Logs Spe SpeSpec SpeFacts SpeRect LeafProofs LeafEvents LeafCond SpeCons LeafGiven MemoProofs NormSorts LogprobProofs LogprobTop SpeEq SimplifyProofs CondTypes CondProofs CondTop
  SpeOps PropSpe DensSpec DensProofs ConstrainProofs DensLimit DensPoint.
Import ListNotations.
Local Open Scope R_scope.

Section Densities.
  Context {N : numsys} {S : logsys} {D : distsys N S} (io : iterorder N) (so : strorder) (po : polyoracle N) (fuel : nat).
  Context (dlaw : dist D -> (fval -> R) -> R) (Ed : eq_dist dlaw).
  (** the density functions of the SciPy objects *)
  Context (dpdf : dist D -> R -> R) (pdf : pdf_ok (S:=S) dpdf).
  Context (ident : spe D -> nat) (hash : spe D -> Z).
  Context (nominal : string -> bool) (envof : string -> tenv (N:=N)).
  Notation spe := (spe D).
  Notation tr := (tr N).
  Notation assignment := (assignment (N:=N)).
  Notation den := (den dlaw).
  Notation wf_spe := (wf_spe dlaw).
  Notation density := (density dlaw dpdf).
  Notation fixed := (fixed dlaw dpdf).
  Notation smooth_at := (smooth_at dlaw dpdf).
  Notation logprob := (logprob io po fuel ident).
  Notation condition := (condition io so po fuel ident hash).
  Notation logpdf_mem := (logpdf_mem ident).
  Notation logpdf := (SpeOps.logpdf ident).
  Notation constrain := (constrain so ident).
  Notation distinct := (distinct (D:=D) ident).
  Notation cons_ok := (cons_ok dlaw dpdf).
  Notation typed := (typed (D:=D) nominal envof).

  (** the assignments that are asked about: dictionaries with finite values *)
  Definition dictionary (a : assignment) : Prop := NoDup (map fst a) /\ finite_values (values_of a).

  (** ** Histories of queries through one memo table *)
  Inductive query := QLogprob (s : spe) (e : tr) | QCondition (s : spe) (e : tr) | QLogpdf (s : spe) (a : assignment) | QConstrain (s : spe) (a : assignment).
  Definition ask (q : query) (m : memo (D:=D)) : memo :=
    match q with
    | QLogprob s e => snd (logprob s e m)
    | QCondition s e => snd (condition s e m)
    | QLogpdf s a => snd (logpdf s a m)
    | QConstrain s a => snd (constrain s a m)
    end.
  Definition table (h : list query) : memo := fold_left (fun m q => ask q m) h Memo.
  Definition constrainable (s : spe) (a : assignment) : Prop :=
    every heavy s /\ dictionary a /\ forall x, In x (map fst a) -> vars s x.
  Definition fine (U : spe -> Prop) (q : query) : Prop :=
    match q with
    | QLogprob s e => U s /\ wf_spe s /\ atoms_ok nominal s /\ askable dlaw nominal s e
    | QCondition s e => U s /\ wf_spe s /\ typed s /\ conditionable dlaw nominal s e
    | QLogpdf s a => U s /\ wf_spe s /\ dictionary a
    | QConstrain s a => U s /\ wf_spe s /\ constrainable s a
    end.
  Section History.
    Context (U : spe -> Prop) (Uc : closed ident U).
    Notation V := (valid dlaw ident U (Forall (centry_ok dlaw ident nominal envof U)) (Forall (pdf_entry dlaw dpdf ident U)) (Forall (cons_entry dlaw dpdf ident U))).
    Lemma fresh_table : V Memo.
    Proof. repeat split; constructor. Qed.
    Lemma logprob_v : forall s e m, U s -> wf_spe s -> atoms_ok nominal s -> askable dlaw nominal s e -> V m ->
      V (snd (logprob s e m)) /\ forall p, fst (logprob s e m) = Ok p -> toP p = prob dlaw s e.
    Proof.
      intros s e m Us W A (G & Rg & Ke) Vm. destruct (logprob_ok io po fuel dlaw ident nominal U Uc _ _ _ s e Us W A G Rg Ke m Vm) as (V' & K). split; auto. intros p Hp. exact (K p Hp w0).
    Qed.
    Lemma condition_v : forall s e m, U s -> wf_spe s -> typed s -> conditionable dlaw nominal s e -> V m ->
      V (snd (condition s e m)) /\ forall t, fst (condition s e m) = Ok t -> cond_ok dlaw nominal envof s (holds e) t.
    Proof. intros s e m Us W T (G & Rg & Se & Sy) Vm. exact (condition_ok io so po fuel dlaw Ed ident hash nominal envof U Uc _ _ s e Us W T G Rg Se Sy m Vm). Qed.
    Lemma vget : forall m, V m -> Forall (pdf_entry dlaw dpdf ident U) (m_logpdf m).
    Proof. intros m H. apply H. Qed.
    Lemma vset : forall m e, V m -> pdf_entry dlaw dpdf ident U e -> V (mkMemo (m_logprob m) (m_condition m) (e :: m_logpdf m) (m_constrain m)).
    Proof. intros m e (A & B & C & E) H. repeat split; cbn; auto. Qed.
    Lemma vget' : forall m, V m -> Forall (cons_entry dlaw dpdf ident U) (m_constrain m).
    Proof. intros m H. apply H. Qed.
    Lemma vset' : forall m e, V m -> cons_entry dlaw dpdf ident U e -> V (mkMemo (m_logprob m) (m_condition m) (m_logpdf m) (e :: m_constrain m)).
    Proof. intros m e (A & B & C & E) H. repeat split; cbn; auto. Qed.
    Lemma logpdf_mem_v : forall s a m, U s -> wf_spe s -> dictionary a -> V m ->
      V (snd (logpdf_mem s a m)) /\ forall r, fst (logpdf_mem s a m) = Ok r -> asked s (values_of a) /\ density s (values_of a) = (fst r, toP (snd r)).
    Proof. intros s a m Us W (_ & Fa) Vm. exact (logpdf_mem_ok dlaw dpdf ident pdf U Uc _ vget vset s a Us W Fa m Vm). Qed.
    Lemma logpdf_v : forall s a m, U s -> wf_spe s -> dictionary a -> V m ->
      V (snd (logpdf s a m)) /\ forall p, fst (logpdf s a m) = Ok p -> asked s (values_of a) /\ toP p = snd (density s (values_of a)).
    Proof.
      intros s a m Us W Da Vm. destruct (logpdf_mem_v s a m Us W Da Vm) as (K1 & K2). unfold SpeOps.logpdf, mbind. destruct (logpdf_mem s a m) as ([r|x], m') eqn:E; cbn [fst snd] in *; split; auto; try discriminate.
      intros p H. injection H as <-. destruct (K2 r eq_refl) as (A & B). now rewrite B.
    Qed.
    Lemma constrain_v : forall s a m, U s -> wf_spe s -> constrainable s a -> V m ->
      V (snd (constrain s a m)) /\ forall t, fst (constrain s a m) = Ok t -> cons_ok s (values_of a) t.
    Proof.
      intros s a m Us W (Hs & (Nd & Fa) & Ks) Vm. refine (constrain_mem_ok dlaw dpdf ident pdf so U Uc _ vget vset vget' vset' s a Us W Hs Fa Nd _ m Vm).
      intros p Hp. apply Ks. rewrite <- values_keys. now apply in_map.
    Qed.
    Lemma table_v : forall h, Forall (fine U) h -> V (table h).
    Proof.
      intros h F. unfold table. pose proof fresh_table as Vm. revert Vm. generalize (Memo (D:=D) (N:=N) (S:=S)). induction F as [|q h Fq F IH]; intros m Vm; cbn [fold_left]; auto. apply IH.
      destruct q as [s e|s e|s a|s a]; cbn [ask]; cbn in Fq; [destruct Fq as (A & B & C & E); now apply logprob_v|destruct Fq as (A & B & C & E); now apply condition_v|destruct Fq as (A & B & C); now apply logpdf_v|destruct Fq as (A & B & C); now apply constrain_v].
    Qed.
    (** ** C30 for histories of all four kinds of queries: an answer is right, whatever the history *)
    Theorem C30_all_logprob : forall h s e p, Forall (fine U) h -> U s -> wf_spe s -> atoms_ok nominal s -> askable dlaw nominal s e ->
      fst (logprob s e (table h)) = Ok p -> toP p = prob dlaw s e.
    Proof. intros h s e p F Us W A Ae. apply logprob_v; auto. now apply table_v. Qed.
    Theorem C30_all_condition : forall h s e t, Forall (fine U) h -> U s -> wf_spe s -> typed s -> conditionable dlaw nominal s e ->
      fst (condition s e (table h)) = Ok t -> wf_spe t /\ typed t /\ (forall x, vars t x <-> vars s x) /\ given dlaw s (holds e) t.
    Proof. intros h s e t F Us W T Ce H. destruct (condition_v s e (table h)) as (_ & K); auto; [now apply table_v|]. destruct (K t H) as (A & B & C & _ & E). auto. Qed.
    Theorem C30_all_logpdf : forall h s a p, Forall (fine U) h -> U s -> wf_spe s -> dictionary a ->
      fst (logpdf s a (table h)) = Ok p -> toP p = snd (density s (values_of a)).
    Proof. intros h s a p F Us W Da H. destruct (logpdf_v s a (table h)) as (_ & K); auto; [now apply table_v|]. now apply K. Qed.
    Theorem C30_all_constrain : forall h s a t, Forall (fine U) h -> U s -> wf_spe s -> constrainable s a ->
      fst (constrain s a (table h)) = Ok t -> wf_spe t /\ forall f w, den t f w = fixed s (values_of a) f w.
    Proof. intros h s a t F Us W Ca H. destruct (constrain_v s a (table h)) as (_ & K); auto; [now apply table_v|]. destruct (K t H) as [_ _ K3 _ _ _ K7]. auto. Qed.
    (** so it agrees with the answer of a fresh table *)
    Theorem C30_all_logpdf_fresh : forall h s a p q, Forall (fine U) h -> U s -> wf_spe s -> dictionary a ->
      fst (logpdf s a (table h)) = Ok p -> fresh (logpdf s a) = Ok q -> toP p = toP q.
    Proof. intros h s a p q F Us W Da Hp Hq. rewrite (C30_all_logpdf h s a p), (C30_all_logpdf [] s a q); auto. Qed.
    Theorem C30_all_constrain_fresh : forall h s a t u, Forall (fine U) h -> U s -> wf_spe s -> constrainable s a ->
      fst (constrain s a (table h)) = Ok t -> fresh (constrain s a) = Ok u -> same_law dlaw t u.
    Proof.
      intros h s a t u F Us W Ca Ht Hu. destruct (C30_all_constrain h s a t F Us W Ca Ht) as (_ & Et). destruct (C30_all_constrain [] s a u (Forall_nil _) Us W Ca Hu) as (_ & Eu). intros f _ w. now rewrite Et, Eu.
    Qed.
    Theorem C30_all_logprob_fresh : forall h s e p q, Forall (fine U) h -> U s -> wf_spe s -> atoms_ok nominal s -> askable dlaw nominal s e ->
      fst (logprob s e (table h)) = Ok p -> fresh (logprob s e) = Ok q -> toP p = toP q.
    Proof. intros h s e p q F Us W A Ae Hp Hq. rewrite (C30_all_logprob h s e p), (C30_all_logprob [] s e q); auto. Qed.
    Theorem C30_all_condition_fresh : forall h s e t u, Forall (fine U) h -> U s -> wf_spe s -> typed s -> conditionable dlaw nominal s e ->
      fst (condition s e (table h)) = Ok t -> fresh (condition s e) = Ok u -> same_law dlaw t u.
    Proof.
      intros h s e t u F Us W T Ce Ht Hu. destruct (condition_v s e (table h)) as (_ & K); auto; [now apply table_v|]. destruct (K t Ht) as (_ & _ & _ & P & G1).
      destruct (condition_v s e Memo Us W T Ce fresh_table) as (_ & K'). destruct (K' u Hu) as (_ & _ & _ & _ & G2). intros f Sf w. specialize (G1 f Sf w). rewrite <- (G2 f Sf w) in G1. specialize (P w). apply Rmult_eq_reg_r in G1; [auto|lra].
    Qed.
  End History.

  (** ** C36: densities *)
  (** logpdf computes the density, and logpdf_mem the dimension too *)
  Theorem C36_rule : forall s a r, wf_spe s -> distinct s -> dictionary a -> fresh (logpdf_mem s a) = Ok r -> density s (values_of a) = (fst r, toP (snd r)).
  Proof. intros s a r W Ds Da H. destruct (logpdf_mem_v (within s) (within_closed ident s Ds) s a Memo (within_self s) W Da (fresh_table _)) as (_ & K). now apply K. Qed.
  Lemma fresh_logpdf : forall s a p, wf_spe s -> distinct s -> dictionary a -> fresh (logpdf s a) = Ok p -> asked s (values_of a) /\ toP p = snd (density s (values_of a)).
  Proof. intros s a p W Ds Da H. destruct (logpdf_v (within s) (within_closed ident s Ds) s a Memo (within_self s) W Da (fresh_table _)) as (_ & K). now apply K. Qed.
  Theorem C36_logpdf : forall s a p, wf_spe s -> distinct s -> dictionary a -> fresh (logpdf s a) = Ok p -> toP p = snd (density s (values_of a)).
  Proof. intros s a p W Ds Da H. now apply fresh_logpdf. Qed.
  (** if no continuous leaf is assigned, it is the probability of the assignment *)
  Theorem C36_atoms : forall s a p, wf_spe s -> distinct s -> dictionary a -> every (atomic_at (values_of a)) s -> fresh (logpdf s a) = Ok p ->
    toP p = Pr dlaw s (agrees (values_of a)).
  Proof.
    intros s a p W Ds Da At H. destruct (fresh_logpdf s a p W Ds Da H) as (As & ->). destruct (point_exact dlaw dpdf pdf s W (values_of a) As At) as (_ & E).
    specialize (E [] w0). unfold Pr. rewrite (functional_extensionality _ _ (agrees_rect (values_of a))). assert (C : every (clear_of (D:=D) (map fst (@nil (string * (fval -> R)))) (values_of a)) s).
    { clear. induction s using spe_ind'; repeat split; try (cbn; tauto); apply All_intro; auto. }
    change (rect (marks (values_of a))) with (rect ([] ++ marks (values_of a))). rewrite (E (Forall_nil _) C).
    destruct (density_nonneg dlaw dpdf pdf s W (values_of a)) as [P|P]; [|rewrite <- P; ring]. change (rect []) with (fun _ : asg => 1). rewrite fixed_one; auto. ring.
  Qed.
  (** else it is the limit of the probabilities of neighbourhoods of the assignment, divided by
      (2h)^d where d is the dimension *)
  Theorem C36_limit : forall s a r, wf_spe s -> distinct s -> dictionary a -> every heavy s -> every (smooth_at (values_of a)) s -> fresh (logpdf_mem s a) = Ok r ->
    density_limit dlaw s (values_of a) (fst r) (toP (snd r)).
  Proof.
    intros s a r W Ds Da Hv Sm H. destruct (logpdf_mem_v (within s) (within_closed ident s Ds) s a Memo (within_self s) W Da (fresh_table _)) as (_ & K). destruct (K r H) as (As & E). clear K.
    destruct (point_limit dlaw dpdf pdf s W (values_of a) As (proj2 Da) Hv Sm) as (L1 & L2). rewrite E in *. cbn [fst snd] in *. unfold density_limit, Pr.
    assert (C : every (clear_of (D:=D) (map fst (@nil (string * (fval -> R)))) (values_of a)) s).
    { clear. induction s using spe_ind'; repeat split; try (cbn; tauto); apply All_intro; auto. }
    specialize (L1 [] w0 (Forall_nil _) C).
    apply (lim0_ext _ (fun h => den s (rect ([] ++ nears h (values_of a))) w0 / (2 * h) ^ fst r)).
    - intros h Hh. rewrite (functional_extensionality _ _ (near_rect h (values_of a))). reflexivity.
    - replace (toP (snd r)) with (toP (snd r) * fixed s (values_of a) (rect []) w0); auto.
      destruct (toP_nonneg S (snd r)) as [P|P]; [|rewrite <- P; ring]. change (rect []) with (fun _ : asg => 1). rewrite fixed_one; auto; [ring|]. now rewrite E.
  Qed.

  (** ** C37: constraining *)
  Lemma fresh_constrain : forall s a t, wf_spe s -> distinct s -> constrainable s a -> fresh (constrain s a) = Ok t -> cons_ok s (values_of a) t.
  Proof. intros s a t W Ds Ca H. destruct (constrain_v (within s) (within_closed ident s Ds) s a Memo (within_self s) W Ca (fresh_table _)) as (_ & K). now apply K. Qed.
  Theorem C37_wf : forall s a t, wf_spe s -> distinct s -> constrainable s a -> fresh (constrain s a) = Ok t -> wf_spe t.
  Proof. intros s a t W Ds Ca H. apply (c_wf _ _ _ _ _ (fresh_constrain s a t W Ds Ca H)). Qed.
  (** the assigned variables have their values *)
  Theorem C37_values : forall s a t, wf_spe s -> distinct s -> constrainable s a -> fresh (constrain s a) = Ok t -> surely dlaw t (agrees (values_of a)).
  Proof.
    clear hash. intros s a t W Ds Ca H w. destruct (fresh_constrain s a t W Ds Ca H) as [C1 C2 C3 _ _ _ C7]. rewrite C7. rewrite (fixed_reach dlaw dpdf s W (values_of a) C1 _ (fun _ => 0 * 1)).
    - rewrite <- (C7 (fun _ => 0 * 1)). rewrite (law_const (den_kernel dlaw t C3 w)). ring.
    - intros u _ Hu. rewrite ind_false by tauto. ring.
  Qed.
  (** constrain raises on assignments of density zero *)
  Theorem C37_positive : forall s a t, wf_spe s -> distinct s -> constrainable s a -> fresh (constrain s a) = Ok t -> 0 < snd (density s (values_of a)).
  Proof. intros s a t W Ds Ca H. apply (c_pos _ _ _ _ _ (fresh_constrain s a t W Ds Ca H)). Qed.
  Lemma plain_clear : forall s a X, wf_spe s -> every (plain_at a) s -> (forall x, In x X -> ~ In x (map fst a)) -> every (clear_of (D:=D) X a) s.
  Proof.
    intros s a X W P HX. induction s using spe_ind'.
    - apply every_leaf; auto. apply every_here in P. cbn [clear_of base]. intros K z Hz Vz. apply (HX z Hz). cbn [plain_at] in P. now rewrite (P K z Vz).
    - apply every_leaf; auto. apply every_here in P. cbn [clear_of base]. intros K z Hz Vz. apply (HX z Hz). cbn [plain_at] in P. now rewrite (P K z Vz).
    - apply every_leaf; auto. cbn [clear_of base]. intros K y Hy Vy. apply (HX y Hy). cbn in Vy. now subst.
    - split; [cbn; auto|]. apply All_intro. intros c Hc. apply H; auto; [eapply sum_wf; eauto|eapply every_sum; eauto].
    - split; [cbn; auto|]. apply All_intro. intros c Hc. apply H; auto; [eapply prod_wf; eauto|eapply every_prod; eauto].
  Qed.
  (** if no continuous leaf is assigned, the result is the conditional distribution *)
  Theorem C37_given : forall s a t, wf_spe s -> distinct s -> constrainable s a -> every (atomic_at (values_of a)) s -> every (plain_at (values_of a)) s ->
    fresh (constrain s a) = Ok t -> given dlaw s (agrees (values_of a)) t.
  Proof.
    clear hash. intros s a t W Ds Ca At Pl H. destruct (fresh_constrain s a t W Ds Ca H) as [C1 C2 C3 _ _ _ C7]. set (b := values_of a) in *. clearbody b.
    destruct (point_exact dlaw dpdf pdf s W b C1 At) as (_ & E). apply (given_rect dlaw s _ t W C3). intros L w HL. rewrite C7.
    set (K := fun x => In x (map fst b)). set (k := rect (inside K L) (fun x => match find (fun p => String.eqb (fst p) x) b with Some p => taken (snd p) | None => w x end)).
    assert (Ek : forall u, agrees b u -> rect (inside K L) u = k).
    { intros u Hu. unfold k. apply (rect_ignores (fun x => ~ K x)); [intros p Hp Q; apply inside_in in Hp; tauto|]. intros x Hx. assert (Kx : K x) by (destruct (dec (K x)); tauto).
      unfold K in Kx. apply in_map_iff in Kx. destruct Kx as (p & <- & Hp). destruct (find (fun q => String.eqb (fst q) (fst p)) b) as [q|] eqn:F.
      - apply find_some in F. destruct F as (F1 & F2). apply String.eqb_eq in F2. rewrite <- F2. now apply Hu.
      - pose proof (find_none _ _ F p Hp) as Q. cbn in Q. rewrite String.eqb_refl in Q. discriminate. }
    assert (E1 : forall M, rect_ok M -> (forall p, In p M -> ~ K (fst p)) -> den s (fun u => rect M u * ind (agrees b) u) w = snd (density s b) * fixed s b (rect M) w).
    { intros M HM Ho. rewrite <- E; auto.
      - f_equal. extensionality u. now rewrite rect_app, agrees_rect.
      - apply plain_clear; auto. intros x Hx. apply in_map_iff in Hx. destruct Hx as (p & <- & Hp). now apply Ho. }
    assert (Ho : forall p, In p (outside K L) -> ~ K (fst p)) by (intros p Hp; apply outside_in in Hp; tauto).
    assert (F1 : fixed s b (rect L) w = k * fixed s b (rect (outside K L)) w).
    { rewrite (fixed_reach dlaw dpdf s W b C1 (rect L) (fun u => rect (outside K L) u * k)).
      - rewrite (n_factor _ _ (fixed_nice dlaw dpdf s W b) (rect (outside K L)) (fun _ => k)); [ring|now apply rect_bnd, rect_ok_outside|intros ? ? _; auto].
      - intros u _ Hu. rewrite (rect_split K L), Ek by auto. ring. }
    assert (F2 : den s (fun u => rect L u * ind (agrees b) u) w = k * den s (fun u => rect (outside K L) u * ind (agrees b) u) w).
    { rewrite <- (law_scale (den_kernel dlaw s W w)) by (apply bnd_mult; [now apply rect_bnd, rect_ok_outside|apply bnd_ind]). f_equal. extensionality u. unfold ind. destruct (dec (agrees b u)) as [Q|Q]; [|ring]. rewrite (rect_split K L), Ek by auto. ring. }
    rewrite F1, F2, E1 by auto using rect_ok_outside.
    assert (F3 : den s (ind (agrees b)) w = snd (density s b)).
    { replace (ind (agrees b)) with (fun u => rect [] u * ind (agrees b) u) by (extensionality u; unfold rect; cbn; ring). rewrite E1 by (try constructor; intros p []). change (rect []) with (fun _ : asg => 1). rewrite fixed_one by auto. ring. }
    rewrite F3. ring.
  Qed.
  (** with continuous leaves: for the other variables the result is the limit of the conditional
      distributions given that the assigned variables are within h of their values *)
  Theorem C37_limit : forall s a t L w, wf_spe s -> distinct s -> constrainable s a -> every (smooth_at (values_of a)) s -> every (plain_at (values_of a)) s ->
    fresh (constrain s a) = Ok t -> rect_ok L -> (forall p, In p L -> ~ In (fst p) (map fst a)) ->
    lim0 (fun h => den s (fun u => rect L u * ind (near h (values_of a)) u) w / den s (ind (near h (values_of a))) w) (den t (rect L) w).
  Proof.
    clear hash. intros s a t L w W Ds Ca Sm Pl H HL Ho. destruct (fresh_constrain s a t W Ds Ca H) as [C1 C2 C3 _ _ _ C7]. destruct Ca as (Hv & (_ & Fa) & _). rewrite <- values_keys in Ho. set (b := values_of a) in *. clearbody b. rewrite C7.
    destruct (point_limit dlaw dpdf pdf s W b C1 Fa Hv Sm) as (L1 & _).
    assert (C : forall M, rect_ok M -> (forall p, In p M -> ~ In (fst p) (map fst b)) -> lim0 (fun h => den s (fun u => rect M u * ind (near h b) u) w / (2 * h) ^ fst (density s b)) (snd (density s b) * fixed s b (rect M) w)).
    { intros M HM Hm. apply (lim0_ext _ (fun h => den s (rect (M ++ nears h b)) w / (2 * h) ^ fst (density s b))).
      - intros h Hh. f_equal. f_equal. extensionality u. now rewrite rect_app, near_rect.
      - apply L1; auto. apply plain_clear; auto. intros x Hx. apply in_map_iff in Hx. destruct Hx as (p & <- & Hp). now apply Hm. }
    pose proof (C L HL Ho) as G1. pose proof (C [] (Forall_nil _) (fun p (Hp : In p []) => match Hp with end)) as G2. change (rect []) with (fun _ : asg => 1) in G2. rewrite fixed_one, Rmult_1_r in G2 by auto.
    assert (G3 : lim0 (fun h => / (den s (fun u => 1 * ind (near h b) u) w / (2 * h) ^ fst (density s b))) (/ snd (density s b))) by (apply lim0_limit; apply lim0_limit in G2; apply limit_inv; auto; lra).
    replace (fixed s b (rect L) w) with (snd (density s b) * fixed s b (rect L) w * / snd (density s b)) by (field; lra).
    refine (lim0_soon _ _ _ _ (lim0_mult _ _ _ _ G1 G3)).
    assert (Nz : soon (fun h => den s (fun u => 1 * ind (near h b) u) w <> 0)).
    { destruct (G2 (snd (density s b)) C2) as (d & Hd & K). exists d. split; auto. intros h Hh Z. specialize (K h Hh). rewrite Z in K. unfold Rdiv in K. rewrite Rmult_0_l, Rminus_0_l, Rabs_Ropp, Rabs_right in K; lra. }
    revert Nz. apply soon_impl. intros h Hh Nz. replace (den s (ind (near h b)) w) with (den s (fun u => 1 * ind (near h b) u) w) by (f_equal; extensionality u; ring). field. split; auto. apply pow_nonzero. lra.
  Qed.

  (** ** C32: the variables of the result *)
  Theorem C32_constrain : forall s a t, wf_spe s -> distinct s -> constrainable s a -> fresh (constrain s a) = Ok t ->
    (forall x, In x (map fst a) -> vars t x) /\ (forall x, vars t x -> vars s x) /\ (every (plain_at (values_of a)) s -> forall x, vars t x <-> vars s x).
  Proof.
    intros s a t W Ds Ca H. destruct (fresh_constrain s a t W Ds Ca H) as [_ _ _ C4 C5 C6 _]. repeat split; auto.
    intros x Hx. rewrite <- values_keys in Hx. apply in_map_iff in Hx. destruct Hx as (p & <- & Hp). auto.
  Qed.
End Densities.

Definition all_dens_properties := (@C36_rule, @C36_logpdf, @C36_atoms, @C36_limit, @C37_wf, @C37_values, @C37_positive, @C37_given, @C37_limit, @C32_constrain,
  @C30_all_logprob, @C30_all_condition, @C30_all_logpdf, @C30_all_constrain, @C30_all_logpdf_fresh, @C30_all_constrain_fresh, @C30_all_logprob_fresh, @C30_all_condition_fresh).
Print Assumptions all_dens_properties.
