(** constrain computes the distribution given an assignment. *)
From Coq Require Import List Bool String Reals Lra Lia ZArith QArith Qreals FunctionalExtensionality Permutation PeanoNat.
From Verif Require Import Base Num Sets SetSpec SetIv SetProofs SetOr SetOps SetAlg SetBuilt
  Poly Trans TransSpec TransFacts PolyProofs InvProofs InvMain EvProofs ArithProofs
  Dnf DnfSpec DnfProofs DnfUnion Logs Spe SpeSpec SpeFacts SpeRect LeafProofs LeafEvents LeafCond SpeCons LeafGiven MemoProofs NormSorts LogprobProofs SpeEq CondTypes SpeOps DensSpec DensProofs.
Import ListNotations.
Local Open Scope R_scope.

Section Constrain.
  Context {N : numsys} {S : logsys} {D : distsys N S}.
  Context (dlaw : dist D -> (fval -> R) -> R) (dpdf : dist D -> R -> R) (ident : spe D -> nat).
  Context (pdf : pdf_ok (S:=S) dpdf).
  Notation spe := (spe D).
  Notation den := (den dlaw).
  Notation wf_spe := (wf_spe dlaw).
  Notation wf_leaf := (wf_leaf dlaw).
  Notation assignment := (assignment (N:=N)).
  Notation density := (density dlaw dpdf).
  Notation leaf_density := (leaf_density dlaw dpdf).
  Notation fixed := (fixed dlaw dpdf).
  Notation M := (M (N:=N) (D:=D)).

  (** ** The order of an assignment does not matter *)
  Lemma perm_cases : forall a b : values, Permutation a b -> a = b \/ (forall x v, a <> [(x, v)]) /\ forall x v, b <> [(x, v)].
  Proof.
    intros [|p [|q a]] b P.
    - left. symmetry. now apply Permutation_nil.
    - left. apply Permutation_length_1_inv in P. auto.
    - right. split; [discriminate|]. intros x v ->. apply Permutation_length in P. discriminate.
  Qed.
  Lemma portion_perm : forall V (a b : values), Permutation a b -> Permutation (portion V a) (portion V b).
  Proof.
    intros V a b P. unfold portion. induction P as [|p a b P IH|p q a|a b c P1 IH1 P2 IH2]; cbn [filter]; auto.
    - destruct (dec _); auto.
    - destruct (dec _), (dec _); auto. constructor.
    - etransitivity; eauto.
  Qed.
  Lemma density_perm : forall (s : spe) a b, Permutation a b -> density s a = density s b.
  Proof.
    assert (Lf : forall s : spe, is_leaf s = true -> forall a b, Permutation a b -> density s a = density s b).
    { intros s L a b P. destruct (perm_cases a b P) as [->|(H1 & H2)]; auto. assert (K : forall c, (forall x v, c <> [(x, v)]) -> density s c = (0%nat, 0)).
      { intros [|(x, v) [|]] K; destruct s; try discriminate; try reflexivity; edestruct K; reflexivity. }
      now rewrite (K a H1), (K b H2). }
    induction s using spe_ind'; intros a' b' P; auto; cbn [DensSpec.density].
    - f_equal. apply map_ext_in. intros c Hc. f_equal. now apply H.
    - rewrite !pprod_pair. f_equal. apply map_ext_in. intros c Hc. pose proof (portion_perm (vars c) a' b' P) as Q. destruct (portion (vars c) a') as [|p x] eqn:Ea.
      + apply Permutation_nil in Q. now rewrite Q.
      + destruct (portion (vars c) b') as [|q y] eqn:Eb; [symmetry in Q; now apply Permutation_nil in Q|]. now apply H.
  Qed.
  Lemma asked_perm : forall (s : spe) a b, Permutation a b -> asked s a -> asked s b.
  Proof.
    assert (Lf : forall s : spe, is_leaf s = true -> forall a b, Permutation a b -> asked s a -> asked s b).
    { intros s L a b P. destruct s; try discriminate; intros (v' & ->); apply Permutation_length_1_inv in P; subst; eexists; reflexivity. }
    induction s using spe_ind'; intros a' b' P As; auto; try (eapply Lf; eauto; reflexivity); cbn [asked] in *.
    - apply All_intro. intros c Hc. eapply H; eauto. exact (All_In _ (fun c => asked (fst c) a') _ _ As Hc).
    - destruct As as (A1 & A2). split; [intros p Hp; apply A1; eapply Permutation_in; [symmetry; exact P|auto]|]. apply All_intro. intros c Hc.
      pose proof (portion_perm (vars c) a' b' P) as Q. destruct (All_In _ _ _ _ A2 Hc) as [K|K].
      + left. rewrite K in Q. now apply Permutation_nil in Q.
      + right. eapply H; eauto.
  Qed.
  Lemma fixed_perm : forall (s : spe) a b, Permutation a b -> forall f w, fixed s a f w = fixed s b f w.
  Proof.
    assert (Lf : forall s : spe, is_leaf s = true -> forall a b, Permutation a b -> forall f w, fixed s a f w = fixed s b f w).
    { intros s L a b P f w. destruct (perm_cases a b P) as [->|(H1 & H2)]; auto. assert (K : forall c, (forall x v, c <> [(x, v)]) -> fixed s c f w = f w).
      { intros [|(x, v) [|]] K; destruct s; try discriminate; try reflexivity; edestruct K; reflexivity. }
      now rewrite (K a H1), (K b H2). }
    induction s using spe_ind'; intros a' b' P f w'; auto; try (apply Lf; auto; reflexivity).
    - change (fixed (SumSPE l) a' f w') with (let d := fst (density (SumSPE l) a') in
      sumR (map (fun c => if Nat.eqb (fst (density (fst c) a')) d
                          then toP (snd c) * snd (density (fst c) a') / snd (density (SumSPE l) a') * fixed (fst c) a' f w'
                          else 0) l)). cbv zeta.
      change (fixed (SumSPE l) b' f w') with (let d := fst (density (SumSPE l) b') in
      sumR (map (fun c => if Nat.eqb (fst (density (fst c) b')) d
                          then toP (snd c) * snd (density (fst c) b') / snd (density (SumSPE l) b') * fixed (fst c) b' f w'
                          else 0) l)). cbv zeta.
      rewrite (density_perm _ a' b' P). apply sumR_ext. intros c Hc. rewrite (density_perm _ a' b' P). destruct (Nat.eqb _ _); auto. f_equal. now apply H.
    - cbn [DensSpec.fixed]. revert f w'. assert (Q : forall c, In c l -> match portion (vars c) a' with [] => den c | p :: x => fixed c (p :: x) end = match portion (vars c) b' with [] => den c | p :: x => fixed c (p :: x) end).
      { intros c Hc. pose proof (portion_perm (vars c) a' b' P) as Q. destruct (portion (vars c) a') as [|p x] eqn:Ea.
        - apply Permutation_nil in Q. now rewrite Q.
        - destruct (portion (vars c) b') as [|q y] eqn:Eb; [symmetry in Q; now apply Permutation_nil in Q|]. extensionality f. extensionality w'. now apply H. }
      clear -Q. induction l as [|c l IH]; intros f w'; [reflexivity|]. cbn [op_prod]. rewrite (Q c (or_introl eq_refl)). f_equal. extensionality u. apply IH. intros; apply Q; now right.
  Qed.

  (** ** What constrain returns *)
  Record cons_ok (s : spe) (a : values) (t : spe) : Prop := {
    c_asked : asked s a;
    c_pos : 0 < snd (density s a);
    c_wf : wf_spe t;
    c_vars : forall x, vars t x -> vars s x;
    c_keys : forall p, In p a -> vars t (fst p);
    c_plain : every (plain_at a) s -> forall x, vars s x -> vars t x;
    c_den : forall f w, den t f w = fixed s a f w
  }.
  Lemma cons_perm : forall s a b t, Permutation a b -> cons_ok s a t -> cons_ok s b t.
  Proof.
    intros s a b t P [C1 C2 C3 C4 C5 C6 C7]. split; auto.
    - now apply (asked_perm s a b).
    - now rewrite <- (density_perm s a b P).
    - intros p Hp. apply C5. eapply Permutation_in; [symmetry; exact P|auto].
    - intros K. apply C6. eapply every_impl; [|exact K]. intros u. assert (Q : forall x, In x (map fst a) -> In x (map fst b)) by (intros x; apply Permutation_in, Permutation_map, P). destruct u; cbn [plain_at]; auto.
    - intros f w. rewrite C7. now apply fixed_perm.
  Qed.
  Lemma base_env_ok : forall x, env_ok (N:=N) x (base_env x) /\ forall w : asg, env_fine (N:=N) (base_env x) w.
  Proof.
    intros x. assert (L : forall y (t : tr N), lookup y (base_env x) = Some t -> y = x /\ t = TId x).
    { intros y t H. unfold base_env, lookup in H. destruct (String.eqb_spec y x) as [->|]; [injection H as <-; auto|discriminate]. }
    split; [split; [constructor|]|]; [|intros w; split]; intros y t H; destruct (L y t H) as (-> & ->); try (split; exact Logic.I); try exact Logic.I; reflexivity.
  Qed.
  Lemma base_place : forall x (w : asg) v, place x (base_env (N:=N) x) w v = upd w x v.
  Proof.
    intros x w v. unfold place, base_env. cbn [derive teval value_or]. extensionality y. unfold upd. destruct (String.eqb_spec x y); auto. now rewrite String.eqb_refl.
  Qed.
  Lemma atom_wf : forall x c, wf_spe (AtomicLeaf x c (base_env x)).
  Proof.
    intros x c. destruct (base_env_ok x) as (E & F). split; [exact E|]. intros w. cbn [SpeSpec.den]. apply ind_false. intros K. apply K, F.
  Qed.
  Lemma base_in : forall s, wf_leaf s -> vars s (base s).
  Proof.
    destruct s; intros W; try contradiction; cbn [vars base]; auto; apply built_facts; apply W.
  Qed.
  Lemma leaf_density_any : forall s x v, is_leaf s = true -> density s [(x, v)] = leaf_density s v.
  Proof. destruct s; intros; try discriminate; reflexivity. Qed.
  Lemma leaf_fixed : forall s x v f w, is_leaf s = true -> fixed s [(x, v)] f w = f (upd w (base s) (taken v)).
  Proof. destruct s; intros; try discriminate; reflexivity. Qed.
  Lemma leaf_cons : forall s a t, wf_leaf s -> finite_values (values_of a) -> leaf_constrain s a = Ok t -> cons_ok s (values_of a) t.
  Proof.
    intros s a t W Fa H. unfold leaf_constrain in H. inv_bind H. unfold leaf_constrain_val in H. inv_bind H. rename r into v, r0 into p. inv_bind H. unfold passert in E1. destruct (lisninf p) eqn:Ep; [discriminate|]. clear E1 r.
    unfold one_value in E. destruct a as [|(k, v') [|]]; try discriminate. inv_bind E. injection E as ->. unfold passert in E1. destruct (String.eqb_spec k (fst (leaf_env s))) as [->|]; [|discriminate]. clear E1 r.
    pose proof (wf_leaf_leaf dlaw s W) as Lf. rewrite leaf_env_base by auto. inversion Fa as [|? ? Fv _]; subst. cbn [fst snd] in Fv.
    pose proof (leaf_logpdf_val_ok dlaw dpdf pdf s v p W Fv E0) as Dn. cbn [values_of map fst snd].
    assert (Pp : 0 < toP p). { pose proof (toP_nonneg S p). destruct H0; auto. symmetry in H0. apply lisninf_ok in H0. congruence. }
    destruct s as [disc x d supp cond env|x a env|x ws|l|l]; try contradiction; try discriminate.
    - destruct v as [[|c|]|]; try discriminate. injection H as <-. split.
      + eexists; reflexivity.
      + rewrite leaf_density_any, Dn by auto. exact Pp.
      + apply atom_wf.
      + intros y [<-|[]]. now apply base_in in W.
      + intros q [<-|[]]. left. reflexivity.
      + intros K y Hy. apply every_here in K. cbn [vars] in *. left. symmetry. apply K; auto. now left.
      + intros f w. rewrite leaf_fixed by auto. cbn [SpeSpec.den]. now rewrite base_place.
    - destruct v as [|y]; try discriminate. unfold mk_NominalLeaf in H. inv_bind H. inv_bind H. injection H as <-. split.
      + eexists; reflexivity.
      + rewrite leaf_density_any, Dn by auto. exact Pp.
      + split; [repeat constructor; auto|]. split; [repeat constructor; discriminate|reflexivity].
      + intros z Hz. exact Hz.
      + intros q [<-|[]]. reflexivity.
      + auto.
      + intros f w. rewrite leaf_fixed by auto. cbn [SpeSpec.den nom_law map fst snd sumR fold_right val_of taken base]. unfold nom_law. cbn [map fst snd sumR fold_right]. replace (Q2R 1) with 1 by (unfold Q2R; cbn; field). ring.
  Qed.

  (** ** Sums *)
  Lemma sum_fixed_eq : forall l a f w, fixed (SumSPE l) a f w = sumR (map (fun c : spe * lg S => if Nat.eqb (fst (density (fst c) a)) (fst (density (SumSPE l) a))
      then toP (snd c) * snd (density (fst c) a) / snd (density (SumSPE l) a) * fixed (fst c) a f w else 0) l).
  Proof. reflexivity. Qed.
  Lemma sum_if : forall A (g : A -> bool) (h : A -> R) l, sumR (map (fun a => if g a then h a else 0) l) = sumR (map h (filter g l)).
  Proof. induction l as [|a l IH]; auto. cbn [map filter]. change (sumR (?a :: ?l)) with (a + sumR l) at 1. rewrite IH. destruct (g a); cbn [map]; [reflexivity|ring]. Qed.
  Lemma sum_density_eq : forall l a d, least (map (fun c : spe * lg S => density (fst c) a) l) = Some d ->
    density (SumSPE l) a = (d, sumR (map (fun c => toP (snd c) * snd (density (fst c) a)) (filter (fun c => Nat.eqb (fst (density (fst c) a)) d) l))).
  Proof.
    intros l a d H. cbn [DensSpec.density]. unfold mix_density. rewrite map_map. cbn [fst]. rewrite H. f_equal. clear.
    induction l as [|c l IH]; auto. cbn [map filter fst snd]. destruct (Nat.eqb _ d); cbn [map fst snd]; auto. change (sumR (?a :: ?l)) with (a + sumR l). now rewrite IH.
  Qed.
  Lemma sum_cons : forall l a ps t, wf_spe (SumSPE l) -> Forall (fun c => 0 < toP (snd c)) l ->
    Forall2 (fun c p => asked (fst c) a /\ density (fst c) a = read p) l ps ->
    forall d, min_dim ps = Some d -> forall ts ws,
    Forall2 (fun q t => cons_ok (fst (snd q)) a t) (filter (fun q => negb (lisninf (snd (fst q))) && Nat.eqb (fst (fst q)) d) (combine ps l)) ts ->
    lognorm (map (fun q => ladd (snd (fst q)) (snd (snd q))) (filter (fun q => negb (lisninf (snd (fst q))) && Nat.eqb (fst (fst q)) d) (combine ps l))) = Ok ws ->
    sum_or_one ts ws = Ok t -> cons_ok (SumSPE l) a t.
  Proof.
    intros l a ps t W Hv F d Hd ts ws. set (qs := filter _ (combine ps l)). intros Ft Hw Ht.
    assert (Cb : forall q, In q (combine ps l) -> In (snd q) l /\ density (fst (snd q)) a = read (fst q)).
    { clear -F. induction F as [|c p l ps (_ & E) F IH]; intros q Hq; [destruct Hq|]. destruct Hq as [<-|Hq]; [split; [now left|exact E]|]. destruct (IH q Hq). split; auto. now right. }
    assert (Hl : least (map (fun c : spe * lg S => density (fst c) a) l) = Some d).
    { rewrite <- Hd, min_dim_least. f_equal. clear -F. induction F as [|c p l ps (_ & E) F IH]; auto. cbn [map]. now rewrite E, IH. }
    assert (Qin : forall q, In q qs -> In (snd q) l /\ density (fst (snd q)) a = read (fst q) /\ 0 < toP (snd (fst q)) /\ fst (fst q) = d).
    { intros q Hq. apply filter_In in Hq. destruct Hq as (Hq & Hb). destruct (Cb q Hq) as (K1 & K2). apply andb_true_iff in Hb. destruct Hb as (B1 & B2). apply Nat.eqb_eq in B2. repeat split; auto.
      pose proof (toP_nonneg S (snd (fst q))) as [G|G]; auto. symmetry in G. apply lisninf_ok in G. rewrite G in B1. discriminate. }
    rewrite Forall_forall in Hv.
    assert (Qp : Forall (fun w => 0 < toP w) (map (fun q : (nat * lg S) * (spe * lg S) => ladd (snd (fst q)) (snd (snd q))) qs)).
    { rewrite Forall_map. apply Forall_forall. intros q Hq. rewrite ladd_ok. destruct (Qin q Hq) as (K1 & _ & K2 & _). apply Rmult_lt_0_compat; auto. }
    assert (Nq : qs <> []).
    { destruct (least_some _ _ Hl) as ((x & Hx & Px & Dx) & _). apply in_map_iff in Hx. destruct Hx as (c & <- & Hc).
      assert (exists p, In (p, c) (combine ps l) /\ density (fst c) a = read p) as (p & Hp & Ep).
      { clear -F Hc. induction F as [|c' p l ps (_ & E) F IH]; [destruct Hc|]; destruct Hc as [<-|Hc]; [exists p; split; [now left|exact E]|]. destruct (IH Hc) as (p' & K1 & K2). exists p'. split; auto. now right. }
      rewrite Ep in Px, Dx. cbn [read fst snd] in Px, Dx. intros K. assert (Hin : In (p, c) qs).
      { apply filter_In. split; auto. cbn [fst snd]. apply andb_true_iff. split; [|now apply Nat.eqb_eq]. apply negb_true_iff. destruct (lisninf (snd p)) eqn:El; auto. apply lisninf_ok in El. lra. }
      rewrite K in Hin. destruct Hin. }
    assert (Nm : map (fun q : (nat * lg S) * (spe * lg S) => ladd (snd (fst q)) (snd (snd q))) qs <> []) by (destruct qs; [tauto|discriminate]).
    destruct (lognorm_pos _ ws Nm Qp Hw) as (Pw & Tw & Fw).
    assert (Wt : Forall wf_spe ts) by (apply Forall_forall; intros u Hu; destruct (Forall2_in_r _ _ _ _ _ _ Ft Hu) as (q & _ & K); apply K).
    assert (Len : List.length ts = List.length ws) by (apply Forall2_len in Ft, Fw; rewrite map_length in Fw; congruence).
    destruct (sum_or_one_ok dlaw ts ws t Wt Len Tw Ht) as (Wf & Vt & Dt).
    assert (Zs : snd (density (SumSPE l) a) = sumR (map toP (map (fun q : (nat * lg S) * (spe * lg S) => ladd (snd (fst q)) (snd (snd q))) qs))).
    { rewrite (sum_density_eq l a d Hl). cbn [snd]. rewrite map_map. unfold qs. clear -F.
      induction F as [|c p l ps (_ & E) F IH]; auto. cbn [filter combine fst snd]. rewrite E. cbn [read fst]. destruct (Nat.eqb (fst p) d); [|rewrite andb_false_r; exact IH]. rewrite andb_true_r.
      cbn [map]. change (sumR (?a :: ?l)) with (a + sumR l) at 1. rewrite IH. destruct (lisninf (snd p)) eqn:El; cbn [negb].
      - rewrite E. cbn [read snd]. apply lisninf_ok in El. rewrite El. ring.
      - cbn [map fst snd]. change (sumR (?a :: ?l)) with (a + sumR l). rewrite ladd_ok, E. cbn [read snd]. ring. }
    assert (Zp : 0 < snd (density (SumSPE l) a)).
    { rewrite Zs. clear -Qp Nm. destruct Qp as [|x m Hx Qp]; [tauto|]. cbn [map]. change (sumR (?a :: ?l)) with (a + sumR l). apply Rplus_lt_le_0_compat; auto. clear -Qp.
      induction Qp as [|y m Hy Qp IH]; [cbn; lra|]. cbn [map]. change (sumR (?a :: ?l)) with (a + sumR l). lra. }
    assert (Dl : fst (density (SumSPE l) a) = d) by now rewrite (sum_density_eq l a d Hl).
    assert (Nt : ts <> []) by (intros ->; inversion Ft; congruence).
    assert (Ex : exists u q, In u ts /\ In q qs /\ cons_ok (fst (snd q)) a u).
    { destruct Ft as [|q u qs' ts' K Ft]; [tauto|]. exists u, q. split; [now left|]. split; [now left|auto]. }
    destruct Ex as (u & q & Hu & Hq & Cu). destruct (Qin q Hq) as (Hql & _). pose proof (sum_vars dlaw l (snd q) W Hql) as Sv.
    split; auto.
    - cbn [asked]. apply All_intro. intros c Hc. destruct (Forall2_in_l _ _ _ _ _ _ F Hc) as (p & _ & K & _). exact K.
    - intros x Hx. apply Sv. apply (c_vars _ _ _ Cu). now apply (Vt u x Hu).
    - intros p Hp. apply (Vt u _ Hu). now apply (c_keys _ _ _ Cu).
    - intros K x Hx. apply (Vt u x Hu). apply (c_plain _ _ _ Cu); [|now apply Sv]. eapply every_sum; eauto.
    - intros f w. rewrite Dt, sum_fixed_eq, Dl, sum_if. rewrite Zs in *. set (Z := sumR (map toP (map _ qs))) in *. clearbody Z.
      transitivity (sumR (map (fun q : (nat * lg S) * (spe * lg S) => toP (snd (snd q)) * toP (snd (fst q)) / Z * fixed (fst (snd q)) a f w) qs)).
      + clear -Ft Fw Zp. revert ws Fw. induction Ft as [|q u qs ts K Ft IH]; intros ws Fw; inversion Fw as [|? w0 ? ws' E Fw']; subst; auto. cbn [combine map fst snd]. change (sumR (?a :: ?l)) with (a + sumR l).
        rewrite (IH ws' Fw'), (c_den _ _ _ K). f_equal. rewrite ladd_ok in E. assert (E' : toP w0 = toP (snd (snd q)) * toP (snd (fst q)) / Z) by (apply (Rmult_eq_reg_r Z); [rewrite E; field; lra|lra]). now rewrite E'.
      + unfold qs. clear -F. induction F as [|c p l ps (_ & E) F IH]; auto. cbn [filter combine fst snd]. rewrite E. cbn [read fst]. destruct (Nat.eqb (fst p) d); [|rewrite andb_false_r; exact IH]. rewrite andb_true_r.
        cbn [map]. change (sumR (?a :: map ?g (filter ?h l))) with (a + sumR (map g (filter h l))). rewrite <- IH. destruct (lisninf (snd p)) eqn:El; cbn [negb].
        * rewrite E. cbn [read snd]. apply lisninf_ok in El. rewrite El. unfold Rdiv. ring.
        * cbn [map fst snd]. change (sumR (?a :: ?l)) with (a + sumR l). rewrite E. reflexivity.
  Qed.

  (** ** Products *)
  Definition op_at (a : values) (c : spe) : (asg -> R) -> asg -> R := match portion (vars c) a with [] => den c | p :: b => fixed c (p :: b) end.
  Definition dens_at (a : values) (c : spe) : nat * R := match portion (vars c) a with [] => (0%nat, 1) | p :: b => density c (p :: b) end.
  Lemma prod_density_eq : forall l a, density (ProductSPE l) a = pprod (map (dens_at a) l).
  Proof. intros. cbn [DensSpec.density]. apply pprod_pair. Qed.
  Lemma prod_fixed_eq : forall l a f w, fixed (ProductSPE l) a f w = op_prod (op_at a) l f w.
  Proof. reflexivity. Qed.
  Lemma portion_in : forall V (a : values) p, In p (portion V a) <-> In p a /\ V (fst p).
  Proof. intros. rewrite portion_inside. apply inside_in. Qed.
  Lemma portion_keys : forall (V : string -> Prop) (a : values) p, In p a -> V (fst p) -> In (fst p) (map fst (portion V a)).
  Proof. intros. apply in_map, portion_in. auto. Qed.
  Lemma plain_portion : forall s V a, every (plain_at a) s -> every (plain_at (D:=D) (portion V a)) s.
  Proof.
    intros s V a. apply every_impl. intros u. assert (Q : forall x, In x (map fst (portion V a)) -> In x (map fst a)).
    { intros x Hx. apply in_map_iff in Hx. destruct Hx as (p & <- & Hp). apply portion_in in Hp. apply in_map, Hp. }
    destruct u; cbn [plain_at]; auto.
  Qed.
  Lemma prod_cons : forall l a ts t, wf_spe (ProductSPE l) -> (forall p, In p a -> vars (ProductSPE l) (fst p)) ->
    Forall2 (fun c t => match portion (vars c) a with [] => t = c | p :: b => cons_ok c (p :: b) t end) l ts ->
    mk_Product ts = Ok t -> cons_ok (ProductSPE l) a t.
  Proof.
    intros l a ts t W Cv F Ht. pose proof (prod_wf dlaw l W) as Wc.
    assert (Wt : Forall wf_spe ts).
    { apply Forall_forall. intros u Hu. destruct (Forall2_in_r _ _ _ _ _ _ F Hu) as (c & Hc & K). destruct (portion (vars c) a); [subst u; auto|apply K]. }
    destruct (mk_Product_ok dlaw ts t Wt Ht) as (Wf & _ & Vt & _ & _ & Dt). split; auto.
    - cbn [asked]. split; auto. apply All_intro. intros c Hc. destruct (Forall2_in_l _ _ _ _ _ _ F Hc) as (u & _ & K). destruct (portion (vars c) a); [now left|]. right. apply K.
    - rewrite prod_density_eq, pprod_snd. clear -F. induction F as [|c u l ts K F IH]; [cbn; lra|]. cbn [map fold_right]. apply Rmult_lt_0_compat; auto. unfold dens_at. destruct (portion (vars c) a); [cbn; lra|apply K].
    - intros x Hx. apply Vt in Hx. destruct Hx as (u & Hu & Hx). destruct (Forall2_in_r _ _ _ _ _ _ F Hu) as (c & Hc & K). apply pvars_in. exists c. split; auto. destruct (portion (vars c) a); [now subst u|]. now apply (c_vars _ _ _ K).
    - intros p Hp. apply Vt. pose proof (Cv p Hp) as V. apply pvars_in in V. destruct V as (c & Hc & V). destruct (Forall2_in_l _ _ _ _ _ _ F Hc) as (u & Hu & K). exists u. split; auto.
      assert (Q : In p (portion (vars c) a)) by (apply portion_in; auto). destruct (portion (vars c) a); [destruct Q|]. now apply (c_keys _ _ _ K).
    - intros Pl x Hx. apply Vt. apply pvars_in in Hx. destruct Hx as (c & Hc & Hx). destruct (Forall2_in_l _ _ _ _ _ _ F Hc) as (u & Hu & K). exists u. split; auto.
      pose proof (plain_portion c (vars c) a (every_prod _ _ _ Pl Hc)) as Q. destruct (portion (vars c) a); [now subst u|]. now apply (c_plain _ _ _ K).
    - intros f w. rewrite Dt, prod_fixed_eq. clear -F. revert f w. induction F as [|c u l ts K F IH]; intros f w; [reflexivity|]. cbn [SpeSpec.den_prod op_prod]. unfold op_at at 1.
      replace (op_prod (op_at a) l f) with (SpeSpec.den_prod den ts f) by (extensionality y; apply IH). destruct (portion (vars c) a); [now subst u|]. apply K.
  Qed.

  (** ** The memo table *)
  Context (so : strorder) (U : spe -> Prop) (Uc : closed ident U).
  Definition cons_entry (e : (nat * assignment) * spe) : Prop := forall s, U s -> ident s = fst (fst e) -> cons_ok s (values_of (snd (fst e))) (snd e).
  Context (V : memo (D:=D) -> Prop).
  Context (Vget : forall m, V m -> Forall (pdf_entry dlaw dpdf ident U) (m_logpdf m)).
  Context (Vset : forall m e, V m -> pdf_entry dlaw dpdf ident U e -> V (mkMemo (m_logprob m) (m_condition m) (e :: m_logpdf m) (m_constrain m))).
  Context (Vget' : forall m, V m -> Forall cons_entry (m_constrain m)).
  Context (Vset' : forall m e, V m -> cons_entry e -> V (mkMemo (m_logprob m) (m_condition m) (m_logpdf m) (e :: m_constrain m))).

  Lemma memo_constrain_ok : forall s a x, U s -> sat V x (cons_ok s (values_of a)) -> sat V (memo_constrain ident s a x) (cons_ok s (values_of a)).
  Proof.
    intros s a x Us H t Ht. unfold memo_constrain. destruct (find_key asg_key_eqb (ident s, a) (m_constrain t)) as [r|] eqn:E.
    - split; [exact Ht|]. cbn [fst]. intros b Eb. injection Eb as <-. apply find_key_in in E. destruct E as ((k, g) & Ek & Hin). unfold asg_key_eqb in Ek. cbn [fst snd] in Ek.
      apply andb_true_iff in Ek. destruct Ek as (E1 & E2). apply Nat.eqb_eq in E1. pose proof (Vget' t Ht) as G. rewrite Forall_forall in G. specialize (G _ Hin s Us (eq_sym E1)). cbn [fst snd] in G.
      now rewrite <- (key_values _ _ E2).
    - destruct (H t Ht) as (H1 & H2). destruct (x t) as [[r|e] t']; cbn [fst snd] in *.
      + split; [|intros b Eb; apply H2; exact Eb]. apply Vset'; auto. intros s' Us' Ei. cbn [fst snd] in *. destruct Uc as (_ & _ & Inj). rewrite (Inj s' s Us' Us Ei). now apply H2.
      + split; auto; discriminate.
  Qed.
  Lemma lookup_in : forall A x (a : list (string * A)) v, NoDup (map fst a) -> (lookup x a = Some v <-> In (x, v) a).
  Proof.
    induction a as [|(y, u) a IH]; intros v Nd; cbn [lookup]; [split; [discriminate|intros []]|]. cbn [map fst] in Nd. inversion Nd; subst. destruct (String.eqb_spec x y) as [->|Ne].
    - split; [intros E; injection E as <-; now left|]. intros [E|K]; [congruence|]. exfalso. apply H1. apply in_map_iff. exists (y, v). auto.
    - rewrite IH by auto. split; [now right|]. intros [E|K]; [congruence|auto].
  Qed.
  Lemma values_keys : forall a : assignment, map fst (values_of a) = map fst a.
  Proof. intros a. unfold values_of. rewrite map_map. reflexivity. Qed.
  Lemma sub_assignment : forall c (a sa : assignment), wf_spe c -> NoDup (map fst a) ->
    mapM (fun x => match lookup x a with Some v => Ok (x, v) | None => Raise KeyError end) (it_str so (filter (fun x => inb String.eqb x (map fst a)) (get_symbols c))) = Ok sa ->
    Permutation (values_of sa) (portion (vars c) (values_of a)) /\ NoDup (map fst sa).
  Proof.
    intros c a sa W Nd H. apply mapM_Forall2 in H. set (sy := it_str so _) in *.
    assert (P := it_str_perm so (filter (fun x => inb String.eqb x (map fst a)) (get_symbols c))). fold sy in P.
    assert (K : Forall2 (fun x q => fst q = x /\ In q a) sy sa).
    { eapply Forall2_weaken; [|exact H]. intros x q E. cbv beta in E. destruct (lookup x a) as [v|] eqn:El; [|discriminate]. injection E as <-. split; auto. now apply lookup_in. }
    assert (Ek : map fst sa = sy). { clear -K. induction K as [|x q sy sa (E & _) K IH]; auto. cbn [map]. now rewrite E, IH. }
    assert (Ns : NoDup (map fst sa)). { rewrite Ek. eapply Permutation_NoDup; [exact P|]. apply NoDup_filter. now apply (get_symbols_nodup dlaw). }
    split; auto. assert (Pm : Permutation sa (filter (fun p => if dec (vars c (fst p)) then true else false) a)).
    { apply NoDup_Permutation.
      - now apply NoDup_map_inv in Ns.
      - apply NoDup_filter. now apply NoDup_map_inv in Nd.
      - intros q. rewrite filter_In. split.
        + intros Hq. destruct (Forall2_in_r _ _ _ _ _ _ K Hq) as (x & Hx & <- & Ha). split; auto. eapply Permutation_in in Hx; [|symmetry; exact P]. apply filter_In in Hx. destruct Hx as (Hx & _).
          apply (get_symbols_vars dlaw) in Hx. now destruct (dec _).
        + intros (Ha & Hv). destruct (dec (vars c (fst q))) as [Vq|]; [|discriminate]. assert (Hx : In (fst q) sy).
          { eapply Permutation_in; [exact P|]. apply filter_In. split; [now apply (get_symbols_vars dlaw)|]. apply inb_string. now apply in_map. }
          destruct (Forall2_in_l _ _ _ _ _ _ K Hx) as (q' & Hq' & E & Ha'). replace q with q'; auto. destruct q as (x, v), q' as (x', v'). cbn [fst] in *. subst x'. f_equal.
          apply lookup_in in Ha, Ha'; auto. congruence. }
    apply (Permutation_map (fun p => (fst p, val_of (snd p)))) in Pm. unfold values_of. etransitivity; [exact Pm|]. apply Permutation_refl'. unfold portion. clear. induction a as [|p a IH]; auto. cbn [map filter fst]. destruct (dec _); cbn [map]; now rewrite IH.
  Qed.
  Lemma portion_empty : forall c (a : assignment), wf_spe c -> filter (fun x => inb String.eqb x (map fst a)) (get_symbols c) = [] -> portion (vars c) (values_of a) = [].
  Proof.
    intros c a W H. destruct (portion (vars c) (values_of a)) as [|p b] eqn:E; auto. assert (Hp : In p (portion (vars c) (values_of a))) by (rewrite E; now left).
    apply portion_in in Hp. destruct Hp as (Hp & Vp). assert (K : In (fst p) (filter (fun x => inb String.eqb x (map fst a)) (get_symbols c))); [|rewrite H in K; destruct K].
    apply filter_In. split; [now apply (get_symbols_vars dlaw)|]. apply inb_string. rewrite <- values_keys. now apply in_map.
  Qed.
  Lemma combine_map_r : forall A B C (g : B -> C) (ps : list A) l, combine ps (map g l) = map (fun q => (fst q, g (snd q))) (combine ps l).
  Proof. induction ps as [|p ps IH]; intros [|c l]; auto. cbn. now rewrite IH. Qed.
  Lemma filter_map : forall A B (g : A -> B) (h : B -> bool) l, filter h (map g l) = map g (filter (fun a => h (g a)) l).
  Proof. induction l as [|a l IH]; auto. cbn [map filter]. destruct (h (g a)); cbn [map]; now rewrite IH. Qed.
  Lemma forall2_map_l : forall A B C (g : A -> B) (P : B -> C -> Prop) l m, Forall2 P (map g l) m <-> Forall2 (fun a => P (g a)) l m.
  Proof.
    induction l as [|a l IH]; intros m; cbn [map]; [split; intros H; inversion H; constructor|]. split; intros H; inversion H; subst; constructor; auto; now apply IH.
  Qed.
  Lemma mmap_map : forall A B C (g : A -> B) (f : B -> M C) l, mmap f (map g l) = mmap (fun a => f (g a)) l.
  Proof. induction l as [|a l IH]; auto. cbn [map mmap]. now rewrite IH. Qed.
  Theorem constrain_mem_ok : forall s a, U s -> wf_spe s -> every heavy s -> finite_values (values_of a) -> NoDup (map fst a) -> (forall p, In p (values_of a) -> vars s (fst p)) ->
    sat V (constrain_mem so ident s a) (cons_ok s (values_of a)).
  Proof.
    induction s using spe_ind'; intros a' Us W Hv Fa Nd Cv; cbn [constrain_mem]; apply memo_constrain_ok; auto; try (apply sat_lift; intros r Hr; now apply leaf_cons).
    - unfold sum_constrain. rewrite mmap_map. cbn [fst snd]. apply sat_bind with (P := Forall2 (fun c p => asked (fst c) (values_of a') /\ density (fst c) (values_of a') = read p) l).
      + apply sat_mmap. intros c Hc. apply (logpdf_mem_ok dlaw dpdf ident pdf U Uc V Vget Vset); auto; [destruct Uc as (K & _); eauto|eapply sum_wf; eauto].
      + intros ps F. destruct (min_dim ps) as [d|] eqn:Ed; [|apply sat_lift; discriminate]. cbv zeta. rewrite combine_map_r, filter_map, mmap_map, map_map. cbn [fst snd].
        set (qs := filter (fun q => negb (lisninf (snd (fst q))) && Nat.eqb (fst (fst q)) d) (combine ps l)).
        apply sat_bind with (P := Forall2 (fun q t => cons_ok (fst (snd q)) (values_of a') t) qs).
        * apply sat_mmap. intros q Hq. apply filter_In in Hq. destruct Hq as (Hq & _). assert (Hc : In (snd q) l) by (destruct q as (p, c); apply in_combine_r in Hq; exact Hq).
          apply H; auto; [destruct Uc as (K & _); eauto|eapply sum_wf; eauto|eapply every_sum; eauto|]. intros p Hp. apply (sum_vars dlaw l (snd q) W Hc). auto.
        * intros ts Ft. apply sat_lift. intros t Ht. inv_bind Ht. pose proof (every_here _ _ Hv) as Hh. exact (sum_cons l (values_of a') ps t W Hh F d Ed ts r Ft E Ht).
    - unfold product_constrain. rewrite mmap_map. cbn [fst snd].
      apply sat_bind with (P := Forall2 (fun c t => match portion (vars c) (values_of a') with [] => t = c | p :: b => cons_ok c (p :: b) t end) l).
      + apply sat_mmap. intros c Hc. pose proof (prod_wf dlaw l W c Hc) as Wc. destruct (filter (fun x => inb String.eqb x (map fst a')) (get_symbols c)) as [|x sy] eqn:Es.
        * apply sat_ret. now rewrite (portion_empty c a' Wc Es).
        * rewrite <- Es. apply sat_bind with (P := fun sa => Permutation (values_of sa) (portion (vars c) (values_of a')) /\ NoDup (map fst sa)); [apply sat_lift; intros sa Hs; now apply sub_assignment|].
          intros sa (Ps & Ns). assert (Sub : forall p, In p (values_of sa) -> In p (values_of a') /\ vars c (fst p)) by (intros p Hp; eapply Permutation_in in Hp; [|exact Ps]; now apply portion_in in Hp).
          eapply sat_weaken; [apply H; auto|].
          -- destruct Uc as (_ & K & _). eauto.
          -- eapply every_prod; eauto.
          -- apply Forall_forall. intros p Hp. unfold finite_values in Fa. rewrite Forall_forall in Fa. apply Fa. now apply Sub.
          -- intros p Hp. now apply Sub.
          -- intros t Ht. apply (cons_perm c _ _ t Ps) in Ht. assert (Ne : portion (vars c) (values_of a') <> []).
             { assert (Hx : In x (filter (fun x => inb String.eqb x (map fst a')) (get_symbols c))) by (rewrite Es; now left). apply filter_In in Hx. destruct Hx as (H1 & H2).
               apply (get_symbols_vars dlaw) in H1. apply inb_string in H2. rewrite <- values_keys in H2. apply in_map_iff in H2. destruct H2 as (p & <- & Hp). intros K.
               assert (Q : In p (portion (vars c) (values_of a'))) by (apply portion_in; auto). rewrite K in Q. destruct Q. }
             destruct (portion (vars c) (values_of a')); [tauto|exact Ht].
      + intros ts F. apply sat_lift. intros t Ht. now apply (prod_cons l (values_of a') ts t).
  Qed.
End Constrain.
