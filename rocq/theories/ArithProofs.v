(** Proofs about arithmetic on transforms and about substitution. *)
From Coq Require Import List Bool String Reals Lra Lia ZArith Classical Permutation.
From Verif Require Import Base Num Sets SetSpec SetIv SetProofs SetIvOr SetOr SetOps SetAlg SetBuilt
  Poly Trans TransSpec TransFacts PolyProofs InvProofs InvMain EvProofs.
Import ListNotations.
Local Open Scope R_scope.

Lemma Forall2_in_r : forall A B (R : A -> B -> Prop) l m b, Forall2 R l m -> In b m -> exists a, In a l /\ R a b.
Proof. induction 1; intros []; subst; simpl; eauto. destruct IHForall2 as (a & ? & ?); eauto. Qed.

Section Arith.
  Context {N : numsys} (io : iterorder N) (po : polyoracle N) (fuel : nat).
  Notation num := (num N).
  Notation tr := (tr N).

  Lemma val_fun : forall (t : tr) w x y, value t w x -> value t w y -> x = y.
  Proof. unfold value. intros t w x y H1 H2. congruence. Qed.
  Lemma num_op_val : forall f v y, num_op f v = Some (FNum y) <-> exists x, v = Some (FNum x) /\ f x = Some y.
  Proof.
    intros f [[x|s]|] y; simpl; split; try discriminate.
    - destruct (f x) eqn:E; [|discriminate]. intros [= <-]. eauto.
    - intros (x' & H & H'). injection H as <-. now rewrite H'.
    - intros (x' & H & _). discriminate.
    - intros (x' & H & _). discriminate.
  Qed.
  Lemma val_poly : forall (u : tr) cs w y, value (TPoly u cs) w y <-> exists x, value u w x /\ y = Rpoly cs x.
  Proof.
    intros. unfold value. simpl. rewrite num_op_val. split; intros (x & H1 & H2); exists x; split; auto; congruence.
  Qed.
  Lemma polyify_val : forall (t u : tr) cs w y, polyify t = (u, cs) -> (value t w y <-> exists x, value u w x /\ y = Rpoly cs x).
  Proof.
    intros t u cs w y H.
    assert (D : (t, [nint 0; nint 1]) = (u, cs) -> (value t w y <-> exists x, value u w x /\ y = Rpoly cs x)).
    { intros [= <- <-]. simpl. rewrite !nint_ok. split.
      - intros K. exists y. split; auto. lra.
      - intros (x & K & ->). replace (0 + x * (1 + x * 0)) with x by lra. auto. }
    destruct t; simpl in H; auto. injection H as <- <-. apply val_poly.
  Qed.
  Lemma polyify_good : forall (t u : tr) cs, polyify t = (u, cs) -> good t -> realv t -> good u /\ realv u.
  Proof. intros t u cs H G Rt. destruct t; simpl in H; injection H as <- <-; auto. Qed.
  Lemma Poly_good : forall (u : tr) cs r, Poly_ u cs = Ok r -> good u -> realv u -> r = TPoly u cs /\ good r /\ realv r.
  Proof. intros u cs r H G Ru. unfold Poly_ in H. inv_bind H. injection H as <-. simpl. auto. Qed.

  Lemma Rpoly_map_mul : forall c (cs : list num) x, Rpoly (map (nmul c) cs) x = toR c * Rpoly cs x.
  Proof. induction cs as [|d cs IH]; intros x; simpl; [lra|]. rewrite IH, nmul_ok. lra. Qed.
  Lemma Rpoly_map_opp : forall (cs : list num) x, Rpoly (map nopp cs) x = - Rpoly cs x.
  Proof. induction cs as [|d cs IH]; intros x; simpl; [lra|]. rewrite IH, nopp_ok. lra. Qed.
  Lemma Rpoly_padd : forall (cs ds : list num) x, Rpoly (padd cs ds) x = Rpoly cs x + Rpoly ds x.
  Proof. induction cs as [|c cs IH]; intros [|d ds] x; simpl; try lra. rewrite IH, nadd_ok. lra. Qed.
  Lemma Rpoly_pmul : forall (cs ds : list num) x, Rpoly (pmul cs ds) x = Rpoly cs x * Rpoly ds x.
  Proof. induction cs as [|c cs IH]; intros ds x; simpl; [lra|]. rewrite Rpoly_padd, Rpoly_map_mul. simpl. rewrite IH, nint_ok. lra. Qed.
  Lemma Rpoly_trim : forall (cs : list num) x, Rpoly (ptrim cs) x = Rpoly cs x.
  Proof.
    induction cs as [|c cs IH]; intros x; simpl; auto. specialize (IH x). destruct (ptrim cs) as [|d ds] eqn:E.
    - simpl in IH. destruct (neqb c (nint 0)) eqn:Z; simpl; [apply neqb_ok in Z; rewrite nint_ok in Z|]; rewrite <- IH; lra.
    - simpl. simpl in IH. rewrite IH. auto.
  Qed.
  Lemma Rpoly_all : forall (cs : list num) x, Rpoly (all_coeffs cs) x = Rpoly cs x.
  Proof.
    intros cs x. rewrite <- (Rpoly_trim cs). unfold all_coeffs. destruct (ptrim cs); simpl; auto. rewrite nint_ok. lra.
  Qed.
  Lemma Rpoly_pow : forall n x, Rpoly (repeat (nint 0) n ++ [nint (n:=N) 1]) x = x ^ n.
  Proof. induction n; intros x; simpl; rewrite ?nint_ok; [lra|]. rewrite IHn. lra. Qed.

  Ltac unpoly E := let u := fresh "u" in let cs := fresh "cs" in destruct (polyify _) as (u, cs) eqn:E.

  (** t + c *)
  Lemma add_num_ok : forall t c r, good t -> realv t -> add_num (N:=N) t c = Ok r ->
    good r /\ realv r /\ forall w y, value r w y <-> exists x, value t w x /\ y = x + toR c.
  Proof.
    intros t c r G Rt H. unfold add_num in H. destruct (polyify t) as (u, cs) eqn:E.
    destruct (polyify_good _ _ _ E G Rt) as (Gu & Ru). destruct cs as [|d cs]; [discriminate|].
    apply Poly_good in H; auto. destruct H as (-> & G' & R'). split; [auto|]. split; [auto|]. intros w y. rewrite val_poly. split.
    - intros (x & H1 & ->). exists (Rpoly (d :: cs) x). split; [apply (polyify_val _ _ _ _ _ E); eauto|]. simpl. rewrite nadd_ok. lra.
    - intros (x & H1 & ->). apply (polyify_val _ _ _ _ _ E) in H1. destruct H1 as (z & H1 & ->). exists z. split; auto.
      simpl. rewrite nadd_ok. lra.
  Qed.
  (** c * t *)
  Lemma mul_num_ok : forall t c r, good t -> realv t -> mul_num (N:=N) t c = Ok r ->
    good r /\ realv r /\ forall w y, value r w y <-> exists x, value t w x /\ y = toR c * x.
  Proof.
    intros t c r G Rt H. unfold mul_num in H. destruct (polyify t) as (u, cs) eqn:E.
    destruct (polyify_good _ _ _ E G Rt) as (Gu & Ru).
    apply Poly_good in H; auto. destruct H as (-> & G' & R'). split; [auto|]. split; [auto|]. intros w y. rewrite val_poly. split.
    - intros (x & H1 & ->). exists (Rpoly cs x). split; [apply (polyify_val _ _ _ _ _ E); eauto|]. apply Rpoly_map_mul.
    - intros (x & H1 & ->). apply (polyify_val _ _ _ _ _ E) in H1. destruct H1 as (z & H1 & ->). exists z. split; auto.
      symmetry. apply Rpoly_map_mul.
  Qed.
  (** operands with the same subexpression *)
  Lemma same_sub : forall (t u s s' : tr) cs ds w x y, polyify t = (s, cs) -> polyify u = (s', ds) -> teqb s' s = true ->
    value t w x -> value u w y -> exists z, value s w z /\ x = Rpoly cs z /\ y = Rpoly ds z.
  Proof.
    intros t u s s' cs ds w x y E E' Q Ht Hu. apply (polyify_val _ _ _ _ _ E) in Ht. apply (polyify_val _ _ _ _ _ E') in Hu.
    destruct Ht as (z & Hz & ->), Hu as (z' & Hz' & ->). unfold value in Hz'. rewrite (teqb_teval _ _ _ Q) in Hz'.
    pose proof (val_fun _ _ _ _ Hz Hz'). subst z'. eauto.
  Qed.
  Lemma add_poly_ok : forall t u r, good t -> realv t -> add_poly (N:=N) t u = Ok r ->
    good r /\ realv r /\ forall w z, value r w z <-> exists x y, value t w x /\ value u w y /\ z = x + y.
  Proof.
    intros t u r G Rt H. unfold add_poly in H. destruct (polyify t) as (s, cs) eqn:E. destruct (polyify u) as (s', ds) eqn:E'.
    destruct (polyify_good _ _ _ E G Rt) as (Gu & Ru). destruct (teqb s' s) eqn:Q; [|discriminate]. cbn [negb] in H.
    destruct (is_const cs || is_const ds)%bool; [discriminate|].
    apply Poly_good in H; auto. destruct H as (-> & G' & R'). split; [auto|]. split; [auto|]. intros w y. rewrite val_poly. split.
    - intros (x & H1 & ->). exists (Rpoly cs x), (Rpoly ds x). split; [apply (polyify_val _ _ _ _ _ E); eauto|]. split.
      + apply (polyify_val _ _ _ _ _ E'). exists x. split; auto. unfold value. rewrite (teqb_teval _ _ _ Q). exact H1.
      + rewrite Rpoly_all, Rpoly_padd. auto.
    - intros (x & x' & H1 & H2 & ->). destruct (same_sub _ _ _ _ _ _ _ _ _ E E' Q H1 H2) as (z & Hz & -> & ->).
      exists z. split; auto. rewrite Rpoly_all, Rpoly_padd. auto.
  Qed.
  Lemma mul_poly_ok : forall t u r, good t -> realv t -> mul_poly (N:=N) t u = Ok r ->
    good r /\ realv r /\ forall w z, value r w z <-> exists x y, value t w x /\ value u w y /\ z = x * y.
  Proof.
    intros t u r G Rt H. unfold mul_poly in H. destruct (polyify t) as (s, cs) eqn:E. destruct (polyify u) as (s', ds) eqn:E'.
    destruct (polyify_good _ _ _ E G Rt) as (Gu & Ru). destruct (teqb s' s) eqn:Q; [|discriminate]. cbn [negb] in H.
    apply Poly_good in H; auto. destruct H as (-> & G' & R'). split; [auto|]. split; [auto|]. intros w y. rewrite val_poly. split.
    - intros (x & H1 & ->). exists (Rpoly cs x), (Rpoly ds x). split; [apply (polyify_val _ _ _ _ _ E); eauto|]. split.
      + apply (polyify_val _ _ _ _ _ E'). exists x. split; auto. unfold value. rewrite (teqb_teval _ _ _ Q). exact H1.
      + rewrite Rpoly_all, Rpoly_pmul. auto.
    - intros (x & x' & H1 & H2 & ->). destruct (same_sub _ _ _ _ _ _ _ _ _ E E' Q H1 H2) as (z & Hz & -> & ->).
      exists z. split; auto. rewrite Rpoly_all, Rpoly_pmul. auto.
  Qed.

  Lemma val_recip : forall (t : tr) w y, value (TRecip t) w y <-> exists x, value t w x /\ x <> 0 /\ y = / x.
  Proof.
    intros. unfold value. simpl. rewrite num_op_val. unfold f_recip. split.
    - intros (x & H1 & H2). destruct (Req_EM_T x 0); [discriminate|]. exists x. split; [auto|]. split; congruence.
    - intros (x & H1 & H2 & ->). exists x. split; auto. destruct (Req_EM_T x 0); [contradiction|auto].
  Qed.
  Lemma div_num_ok : forall t c r, good t -> realv t -> div_num (N:=N) t c = Ok r ->
    toR c <> 0 /\ good r /\ realv r /\ forall w y, value r w y <-> exists x, value t w x /\ y = x / toR c.
  Proof.
    intros t c r G Rt H. unfold div_num in H. destruct (neqb c (nint 0)) eqn:Z; [discriminate|].
    assert (toR c <> 0). { intros K. enough (neqb c (nint 0) = true) by congruence. apply neqb_ok. now rewrite nint_ok. }
    apply mul_num_ok in H; auto. destruct H as (A & B & C). split; [auto|]. split; [auto|]. split; [auto|]. intros w y. rewrite C.
    split; intros (x & H1 & ->); exists x; split; auto; rewrite ninv_ok by auto; unfold Rdiv; lra.
  Qed.
  Lemma rdiv_num_ok : forall c t r, good t -> realv t -> rdiv_num (N:=N) c t = Ok r ->
    good r /\ realv r /\ forall w y, value r w y <-> exists x, value t w x /\ x <> 0 /\ y = toR c / x.
  Proof.
    intros c t r G Rt H. unfold rdiv_num in H. destruct (neqb c (nint 1)) eqn:Z.
    - injection H as <-. apply neqb_ok in Z. rewrite nint_ok in Z. split; [simpl; auto|]. split; [exact I|].
      intros w y. rewrite val_recip, Z. unfold Rdiv. split; intros (x & H1 & H2 & ->); exists x; split; auto; split; auto; lra.
    - apply mul_num_ok in H; simpl; auto. destruct H as (A & B & C). split; [auto|]. split; [auto|]. intros w y. rewrite C. split.
      + intros (x & H1 & ->). apply val_recip in H1. destruct H1 as (z & H1 & H2 & ->). eauto.
      + intros (x & H1 & H2 & ->). exists (/ x). split; auto. apply val_recip. eauto.
  Qed.
  Lemma t_neg_ok : forall t r, good t -> realv t -> t_neg (N:=N) t = Ok r ->
    good r /\ realv r /\ forall w y, value r w y <-> exists x, value t w x /\ y = - x.
  Proof.
    intros t r G Rt H.
    assert (D : mul_num t (nint (-1)) = Ok r -> good r /\ realv r /\ forall w y, value r w y <-> exists x, value t w x /\ y = - x).
    { intros K. apply mul_num_ok in K; auto. destruct K as (A & B & C). split; [auto|]. split; [auto|]. intros w y. rewrite C, nint_ok.
      split; intros (x & H1 & ->); exists x; split; auto; lra. }
    destruct t as [| | | | | |u cs| | | |]; simpl in H; auto. destruct G as (G & Ru).
    apply Poly_good in H; auto. destruct H as (-> & G' & R'). split; [auto|]. split; [auto|]. intros w y. rewrite val_poly. split.
    - intros (x & H1 & ->). exists (Rpoly cs x). split; [apply val_poly; eauto|]. apply Rpoly_map_opp.
    - intros (x & H1 & ->). apply val_poly in H1. destruct H1 as (z & H1 & ->). exists z. split; auto. symmetry. apply Rpoly_map_opp.
  Qed.
  Lemma sub_num_ok : forall t c r, good t -> realv t -> sub_num (N:=N) t c = Ok r ->
    good r /\ realv r /\ forall w y, value r w y <-> exists x, value t w x /\ y = x - toR c.
  Proof.
    intros t c r G Rt H. apply add_num_ok in H; auto. destruct H as (A & B & C). split; [auto|]. split; [auto|].
    intros w y. rewrite C, nmul_ok, nint_ok. split; intros (x & H1 & ->); exists x; split; auto; lra.
  Qed.
  Lemma t_abs_ok : forall t : tr, good t -> realv t ->
    good (t_abs t) /\ realv (t_abs t) /\ forall w y, value (t_abs t) w y <-> exists x, value t w x /\ y = Rabs x.
  Proof.
    intros t G Rt.
    assert (V : forall (t : tr) w y, value (TAbs t) w y <-> exists x, value t w x /\ y = Rabs x).
    { intros. unfold value. simpl. rewrite num_op_val. split; intros (x & H1 & H2); exists x; split; auto; congruence. }
    assert (D : t_abs t = TAbs t -> good (t_abs t) /\ realv (t_abs t) /\ forall w y, value (t_abs t) w y <-> exists x, value t w x /\ y = Rabs x).
    { intros ->. split; [simpl; auto|]. split; [exact I|]. intros w y. apply V. }
    destruct t; auto. split; [exact G|]. split; [exact I|]. intros w y. simpl t_abs. split.
    - intros H. exists y. split; auto. apply V in H. destruct H as (x & _ & ->). now rewrite Rabs_Rabsolu.
    - intros (x & H & ->). pose proof H as H'. apply V in H. destruct H as (z & _ & ->). now rewrite Rabs_Rabsolu.
  Qed.
  Lemma pow_int_pos : forall t p r, good t -> realv t -> pow_int (N:=N) t (Zpos p) = Ok r ->
    good r /\ realv r /\ forall w y, value r w y <-> exists x, value t w x /\ y = x ^ Pos.to_nat p.
  Proof.
    intros t p r G Rt H. unfold pow_int, Pow_ in H. apply Poly_good in H; auto. destruct H as (-> & G' & R'). split; [auto|]. split; [auto|].
    intros w y. rewrite val_poly. split; intros (x & H & ->); exists x; split; auto; [|symmetry]; apply Rpoly_pow.
  Qed.
  Lemma pow_int_neg : forall t p r, good t -> realv t -> pow_int (N:=N) t (Zneg p) = Ok r ->
    good r /\ realv r /\ forall w y, value r w y <-> exists x, value t w x /\ x <> 0 /\ y = / x ^ Pos.to_nat p.
  Proof.
    intros t p r G Rt H. unfold pow_int in H. inv_bind H. injection H as <-. apply (pow_int_pos t p) in E; auto.
    destruct E as (A & B & C). split; [simpl; auto|]. split; [exact I|]. intros w y. rewrite val_recip. split.
    - intros (x & H1 & H2 & ->). apply C in H1. destruct H1 as (z & H1 & ->). exists z. split; [auto|]. split; auto.
      intros ->. apply H2. apply pow_i. apply Pos2Nat.is_pos.
    - intros (x & H1 & H2 & ->). exists (x ^ Pos.to_nat p). split; [apply C; eauto|]. split; auto. now apply pow_nonzero.
  Qed.
  Lemma val_radical : forall (t : tr) d w y, value (TRadical t d) w y <-> exists x, value t w x /\ f_root d x = Some y.
  Proof. intros. unfold value. simpl. apply num_op_val. Qed.
  (** the d-th root: the non-negative number whose d-th power is x *)
  Lemma f_root_spec : forall d x y, f_root d x = Some y <-> 0 <= y /\ y ^ Pos.to_nat d = x.
  Proof.
    intros. rewrite f_root_iff. split; [tauto|]. intros (H1 & H2). split; [|auto]. rewrite <- H2. now apply pow_le.
  Qed.
  Lemma val_exp : forall (t : tr) b w y, value (TExp t b) w y <-> exists x, value t w x /\ y = Rpower (toR b) x.
  Proof.
    intros. unfold value. simpl. rewrite num_op_val. unfold f_exp.
    split; intros (x & H1 & H2); exists x; split; auto; congruence.
  Qed.
  Lemma val_log : forall (t : tr) b w y, value (TLog t b) w y <-> exists x, value t w x /\ 0 < x /\ y = ln x / ln (toR b).
  Proof.
    intros. unfold value. simpl. rewrite num_op_val. unfold f_log. split.
    - intros (x & H1 & H2). destruct (Rlt_dec 0 x); [|discriminate]. exists x. split; [auto|]. split; congruence.
    - intros (x & H1 & H2 & ->). exists x. split; auto. destruct (Rlt_dec 0 x); [auto|contradiction].
  Qed.

  Lemma plain_regular : forall (t : tr) b w, plain t -> regular b t w.
  Proof.
    induction t using tr_ind'; intros inf w P; simpl in *; auto; try tauto.
    - destruct P as (P & K). split; auto.
    - apply All_Forall. apply All_Forall in P. rewrite Forall_forall in *. auto.
    - apply All_Forall. apply All_Forall in P. rewrite Forall_forall in *. auto.
  Qed.

  (** ** Piecewise *)
  Lemma val_piece1 : forall (t e : tr) w y, value (TPiece [(t, e)]) w y <-> holds e w /\ value t w y.
  Proof.
    intros. unfold value, holds. simpl. destruct (dec (teval e w = one)); [tauto|]. split; [discriminate|tauto].
  Qed.
  Lemma Piecewise_shape : forall ss es r, Piecewise io po fuel ss es = Ok r ->
    r = TPiece (combine ss es) /\ List.length ss = List.length es /\ ss <> [] /\ forallb (@is_event N) es = true /\
    (List.length (sunions (map (@symbols N) ss)) <= 1)%nat /\
    same_symbols (sunions (map (@symbols N) ss)) (sunions (map (@symbols N) es)) = true /\
    exists ds, mapM (solve io po fuel) es = Ok ds /\ pairwise_disjoint io ds = Ok tt.
  Proof.
    intros ss es r H. unfold Piecewise in H. destruct (forallb is_event es) eqn:E1; [|discriminate].
    destruct (Nat.eqb (List.length ss) (List.length es)) eqn:E2; [|discriminate]. apply Nat.eqb_eq in E2.
    destruct ss as [|s ss]; [discriminate|]. remember (s :: ss) as ss'.
    destruct (Nat.ltb 1 (List.length (sunions (map symbols ss')))) eqn:E3; [discriminate|]. apply Nat.ltb_ge in E3.
    destruct (same_symbols (sunions (map symbols ss')) (sunions (map symbols es))) eqn:E4; [|discriminate]. cbn [negb] in H.
    inv_bind H. inv_bind H. injection H as <-. destruct r1.
    repeat (split; auto). - subst; discriminate. - eauto.
  Qed.

  Lemma combine_fst_snd : forall A B (l : list (A * B)), combine (map fst l) (map snd l) = l.
  Proof. induction l as [|[]]; simpl; congruence. Qed.
  Lemma map_fst_combine : forall A B C (f : A -> C) (l : list A) (m : list B), List.length l = List.length m ->
    map (fun p => f (fst p)) (combine l m) = map f l.
  Proof. induction l; intros [|b m] H; simpl in *; try discriminate; auto. rewrite IHl; auto. Qed.

  Lemma Piecewise_only : forall ss es r, Piecewise io po fuel ss es = Ok r -> Forall (@good N) ss ->
    exists X, Forall (only X) ss /\ Forall (only X) es.
  Proof.
    intros ss es r H G. apply Piecewise_shape in H. destruct H as (_ & _ & Ne & _ & L & Sy & _).
    destruct ss as [|s ss]; [congruence|]. inversion G as [|? ? Gs _]; subst. destruct (symbols_some s Gs) as (X & HX). exists X.
    remember (sunions (map (@symbols N) (s :: ss))) as U eqn:EU.
    assert (UX : forall x, In x U -> x = X).
    { assert (In X U) by (subst U; apply in_sunions; exists (symbols s); split; [now left|auto]).
      destruct U as [|u [|]]; simpl in *; [tauto| |lia]. intros x [<-|[]]. destruct H; [congruence|tauto]. }
    split; apply Forall_forall; intros e He x Hx; apply UX.
    - subst U. apply in_sunions. exists (symbols e). split; auto. now apply in_map.
    - apply (set_eqb_string _ _ Sy). apply in_sunions. exists (symbols e). split; auto. now apply in_map.
  Qed.
  Lemma Piecewise_good : forall ss es r, Piecewise io po fuel ss es = Ok r -> Forall (fun t => good t /\ realv t) ss ->
    Forall gev es -> good r /\ realv r.
  Proof.
    intros ss es r H Gs Ge. apply Piecewise_shape in H. destruct H as (-> & L & Ne & _ & _ & Sy & _). split; [|exact I].
    cbn [good]. split; [destruct ss, es; simpl in *; congruence|]. apply All_Forall. apply Forall_forall. intros (t, e) Hp.
    pose proof (in_combine_l _ _ _ _ Hp) as Ht. pose proof (in_combine_r _ _ _ _ Hp) as He.
    rewrite Forall_forall in Gs, Ge. destruct (Gs t Ht), (Ge e He). simpl fst; simpl snd. ands; auto.
    simpl symbols. rewrite (map_fst_combine _ _ _ (@symbols N)) by auto. intros x Hx. apply (set_eqb_string _ _ Sy). apply in_sunions.
    exists (symbols e). split; auto. now apply in_map.
  Qed.

  Lemma pairwise_disjoint_ok : forall ds, pairwise_disjoint io ds = Ok tt -> Forall wf ds ->
    ForallOrdPairs (fun d c => forall v, fm v d -> fm v c -> False) ds.
  Proof.
    induction ds as [|d ds IH]; intros H F; [constructor|]. inversion F as [|? ? Wd Wds]; subst. cbn [pairwise_disjoint] in H.
    inv_bind H. destruct (forallb (fun b => b) r) eqn:Q; [|discriminate]. constructor; [|now apply IH].
    apply mapM_Forall2 in E. clear -E Q Wd Wds. induction E as [|c b ds r Hc _ IH]; [constructor|].
    inversion Wds; subst. cbv beta in Hc. inv_bind Hc. inv_bind Hc. injection Hc as <-. simpl in Q. apply andb_true_iff in Q.
    destruct Q as (Q1 & Q2). constructor; [|now apply IH]. apply andb_true_iff in Q1. destruct Q1 as (Q1 & _).
    intros v Hd Hv. apply pand_f in E; auto. destruct E as (_ & E & _). destruct r0; try discriminate.
    now apply (proj2 (E v) (conj Hd Hv)).
  Qed.
  (** the constructor's overlap check: at a regular point no two events are true *)
  Theorem Piecewise_disjoint : forall ss es r, Piecewise io po fuel ss es = Ok r -> Forall (@good N) ss -> Forall gev es ->
    forall w b, (forall e, In e es -> regular b e w) -> ForallOrdPairs (fun e f => ~ (holds e w /\ holds f w)) es.
  Proof.
    intros ss es r H Gs Ge w b Rg. destruct (Piecewise_only _ _ _ H Gs) as (X & _ & On).
    apply Piecewise_shape in H. destruct H as (_ & _ & _ & _ & _ & _ & ds & Hm & Hd). apply mapM_Forall2 in Hm.
    assert (F : Forall2 (fun e d => wf d /\ (fm (w X) d <-> holds e w)) es ds).
    { clear Hd. induction Hm as [|e d es ds He _ IH]; [constructor|]. inversion On; inversion Ge as [|? ? (Gg & Ev) Ge']; subst. constructor.
      - destruct (solve_ok io po fuel X e d b) as (W & Q); auto. split; auto. apply Q. apply Rg. now left.
      - apply IH; auto. intros e' He'. apply Rg. now right. }
    apply pairwise_disjoint_ok in Hd; [|clear -F; induction F as [|? ? ? ? (K & _)]; constructor; auto].
    clear -F Hd. induction F as [|e d es ds (_ & He) F IH]; [constructor|]. inversion Hd as [|? ? D1 D2]; subst. constructor; [|now apply IH].
    clear IH D2. induction F as [|e' d' es ds (_ & He') F IH]; [constructor|]. inversion D1; subst. constructor.
    - intros (K1 & K2). eapply H1; [apply He; exact K1|apply He'; exact K2].
    - apply IH; auto. inversion Hd as [|? ? D1' D2']; subst. inversion D1'; inversion D2'; subst. constructor; auto.
  Qed.

  Lemma sum_app : forall (l m : list (tr * tr)) w z, sum_val (l ++ m) w z <-> exists x y, sum_val l w x /\ sum_val m w y /\ z = x + y.
  Proof.
    induction l as [|p l IH]; intros m w z; simpl.
    - split; [intros H; exists 0, z; ands; auto; lra|]. intros (x & y & -> & H & ->). now rewrite Rplus_0_l.
    - split.
      + intros (a & b & H1 & H2 & ->). apply IH in H2. destruct H2 as (x & y & H2 & H3 & ->). exists (a + x), y. ands; auto; [|lra].
        exists a, x. auto.
      + intros (x & y & (a & b & H1 & H2 & ->) & H3 & ->). exists a, (b + y). ands; auto; [|lra]. apply IH. exists b, y. auto.
  Qed.
  Lemma sum_zero : forall (l : list (tr * tr)) w y, (forall p, In p l -> ~ holds (snd p) w) -> (sum_val l w y <-> y = 0).
  Proof.
    induction l as [|p l IH]; intros w y H; simpl; [tauto|]. split.
    - intros (a & b & H1 & H2 & ->). apply IH in H2; [|intros q Hq; apply H; now right]. subst b.
      destruct H1 as [(H1 & _)|(_ & ->)]; [|lra]. exfalso. apply (H p); [now left|auto].
    - intros ->. exists 0, 0. ands; [right; split; auto; apply H; now left| |lra]. apply IH; auto. intros q Hq; apply H; now right.
  Qed.
  (** a Piecewise with disjoint events is the sum of its pieces times indicators, undefined
      where that sum has no true event *)
  Lemma val_pieces : forall (l : list (tr * tr)) w y, ForallOrdPairs (fun e f => ~ (holds e w /\ holds f w)) (map snd l) ->
    (value (TPiece l) w y <-> (exists p, In p l /\ holds (snd p) w) /\ sum_val l w y).
  Proof.
    intros l w y D. unfold value. cbn [teval]. induction l as [|p l IH]; simpl.
    - split; [discriminate|]. intros ((p & [] & _) & _).
    - simpl in D. inversion D as [|? ? D1 D2]; subst. destruct (dec (teval (snd p) w = one)) as [Hp|Hp].
      + assert (Z : forall q, In q l -> ~ holds (snd q) w).
        { intros q Hq K. rewrite Forall_forall in D1. apply (D1 (snd q)); auto. now apply in_map. }
        split.
        * intros H. split; [exists p; auto|]. exists y, 0. ands; [left; auto| |lra]. now apply sum_zero.
        * intros (_ & a & b & H1 & H2 & ->). apply sum_zero in H2; auto. subst b. destruct H1 as [(_ & H1)|(H1 & _)]; [|contradiction].
          rewrite Rplus_0_r. exact H1.
      + rewrite (IH D2). split.
        * intros ((q & Q1 & Q2) & H). split; [exists q; auto|]. exists 0, y. ands; auto; [right; auto|lra].
        * intros ((q & [<-|Q1] & Q2) & a & b & H1 & H2 & ->); [contradiction|]. split; [eauto|].
          destruct H1 as [(H1 & _)|(_ & ->)]; [contradiction|]. now rewrite Rplus_0_l.
  Qed.

  Lemma t_mul_ok : forall t u r, good t -> good u -> realv t -> realv u -> t_mul io po fuel t u = Ok r -> is_event t = false -> is_event u = false ->
    good r /\ realv r /\ forall w z, value r w z <-> exists x y, value t w x /\ value u w y /\ z = x * y.
  Proof.
    intros t u r Gt Gu Rt Ru H E1 E2. unfold t_mul in H. rewrite E1, E2 in H. now apply mul_poly_ok.
  Qed.
  Lemma t_mul_event : forall t e r, good t -> realv t -> gev e -> t_mul io po fuel e t = Ok r \/ (is_event t = false /\ t_mul io po fuel t e = Ok r) ->
    good r /\ realv r /\ forall w y, value r w y <-> holds e w /\ value t w y.
  Proof.
    intros t e r Gt Rt Ge H.
    assert (P : Piecewise io po fuel [t] [e] = Ok r).
    { destruct H as [H|(E & H)]; unfold t_mul in H.
      - now rewrite (proj2 Ge) in H.
      - now rewrite E, (proj2 Ge) in H. }
    destruct (Piecewise_good _ _ _ P) as (G & R'); auto. split; [auto|]. split; [auto|].
    apply Piecewise_shape in P. destruct P as (-> & _). intros w y. apply val_piece1.
  Qed.
  Lemma t_add_ok : forall t u r, good t -> realv t -> t_add io po fuel t u = Ok r ->
    (forall l m, t = TPiece l -> u = TPiece m -> False) ->
    good r /\ realv r /\ forall w z, value r w z <-> exists x y, value t w x /\ value u w y /\ z = x + y.
  Proof.
    intros t u r Gt Rt H Np. assert (add_poly t u = Ok r); [|now apply add_poly_ok].
    destruct t, u; simpl in H; auto. exfalso. eapply Np; eauto.
  Qed.
  Lemma t_add_pieces : forall l m r, good (TPiece l) -> good (TPiece m) -> t_add io po fuel (TPiece l) (TPiece m) = Ok r ->
    good r /\ realv r /\ forall w b, (forall p, In p (l ++ m) -> regular b (snd p) w) ->
      forall z, value r w z <-> (exists p, In p (l ++ m) /\ holds (snd p) w) /\ exists x y, sum_val l w x /\ sum_val m w y /\ z = x + y.
  Proof.
    intros l m r Gl Gm H. cbn [t_add] in H. rewrite <- !map_app in H.
    cbn [good] in Gl, Gm. destruct Gl as (_ & Gl), Gm as (_ & Gm).
    assert (Q : forall p, In p (l ++ m) -> good (fst p) /\ realv (fst p) /\ gev (snd p)).
    { intros p Hp. apply in_app_or in Hp. destruct Hp as [Hp|Hp].
      - apply (All_In _ _ _ _ Gl) in Hp. unfold gev. tauto.
      - apply (All_In _ _ _ _ Gm) in Hp. unfold gev. tauto. }
    assert (Gs : Forall (fun t => good t /\ realv t) (map fst (l ++ m))).
    { apply Forall_map, Forall_forall. intros p Hp. destruct (Q p Hp) as (A & B & _). auto. }
    assert (Ge : Forall gev (map snd (l ++ m))).
    { apply Forall_map, Forall_forall. intros p Hp. apply (Q p Hp). }
    destruct (Piecewise_good _ _ _ H Gs Ge) as (G & R'). split; [auto|]. split; [auto|]. intros w b Rg z.
    pose proof (Piecewise_disjoint _ _ _ H) as D. apply Piecewise_shape in H. destruct H as (-> & _).
    rewrite combine_fst_snd. rewrite val_pieces, sum_app; [tauto|]. apply (D) with (b := b); auto.
    - eapply Forall_impl; [|exact Gs]. intros a (K & _). exact K.
    - intros e He. apply in_map_iff in He. destruct He as (p & <- & Hp). auto.
  Qed.
  Lemma t_sub_ok : forall t u r, good t -> good u -> realv t -> realv u -> t_sub io po fuel t u = Ok r ->
    good r /\ realv r /\ forall w z, value r w z <-> exists x y, value t w x /\ value u w y /\ z = x - y.
  Proof.
    intros t u r Gt Gu Rt Ru H. unfold t_sub in H. inv_bind H. rename r0 into v.
    assert (Nv : exists s cs, v = TPoly s cs).
    { unfold mul_num in E. destruct (polyify u) as (s, cs). unfold Poly_ in E. inv_bind E. injection E as <-. eauto. }
    destruct Nv as (s & cs & ->). apply mul_num_ok in E; auto. destruct E as (A & B & C).
    apply t_add_ok in H; auto; [|intros; discriminate]. destruct H as (D & F & K). split; [auto|]. split; [auto|].
    intros w z. rewrite K. split.
    - intros (x & y & H1 & H2 & ->). apply C in H2. destruct H2 as (y' & H2 & ->). exists x, y'. ands; auto. rewrite nint_ok. lra.
    - intros (x & y & H1 & H2 & ->). exists x, (- y). split; [auto|]. split; [|lra]. apply C. exists y. split; auto. rewrite nint_ok. lra.
  Qed.

  (** ** Substitution *)

  Lemma subs_teval : forall env w, consistent env w ->
    forall t t', subs io po fuel env t = Ok t' -> teval t' w = teval t w.
  Proof.
    intros env w C. induction t using tr_ind'; intros t' H'; cbn [subs] in H';
      match type of H' with (if negb ?b then _ else _) = _ => destruct b; cbn [negb] in H'; [|injection H' as <-; reflexivity] end;
      try (inv_bind H'; injection H' as <-; simpl; rewrite (IHt _ E); reflexivity).
    - destruct (lookup x env) eqn:L; injection H' as <-; auto. simpl. now apply C.
    - inv_bind H'. inv_bind H'. apply Piecewise_shape in H'. destruct H' as (-> & L & _). cbn [teval]. f_equal.
      apply mapM_Forall2 in E, E0. revert r r0 E E0 L. induction l as [|p l IH]; intros r r0 E E0 L; inversion E; inversion E0; subst; auto.
      inversion H as [|? ? (Hp1 & Hp2) Hl]; subst. simpl. rewrite (Hp1 _ H2), (Hp2 _ H7). f_equal. apply IH; auto.
    - inv_bind H'. assert (t' = EOr r) as ->. { unfold EventOr in H'. inv_bind H'. now injection H' as <-. }
      cbn [teval]. f_equal. apply mapM_Forall2 in E. clear H'. induction E; auto. inversion H; subst. simpl. f_equal; auto.
    - inv_bind H'. assert (t' = EAnd r) as ->. { unfold EventAnd in H'. inv_bind H'. now injection H' as <-. }
      cbn [teval]. f_equal. apply mapM_Forall2 in E. clear H'. induction E; auto. inversion H; subst. simpl. f_equal; auto.
  Qed.
  Theorem substitute_teval : forall n env w t t', consistent env w -> substitute io po fuel n env t = Ok t' -> teval t' w = teval t w.
  Proof.
    induction n; intros env w t t' C H; cbn [substitute] in H; destruct (expr_in_env t env); try discriminate; try (injection H as <-; reflexivity).
    inv_bind H. rewrite (IHn _ _ _ _ C H). now apply (subs_teval env).
  Qed.

  (** symbols after one round *)
  Lemma subs_symbols : forall env t t', subs io po fuel env t = Ok t' -> forall y, In y (symbols t') ->
    (In y (symbols t) /\ moved env y = false) \/
    exists x u, In x (symbols t) /\ moved env x = true /\ lookup x env = Some u /\ In y (symbols u).
  Proof.
    intros env. induction t using tr_ind'; intros t' H' y Hy; cbn [subs] in H';
      match type of H' with (if negb (expr_in_env ?t env) then _ else _) = _ => destruct (expr_in_env t env) eqn:Ex; cbn [negb] in H' end;
      try (injection H' as <-; left; split; [exact Hy|];
           unfold expr_in_env in Ex; destruct (moved env y) eqn:Mv; auto; exfalso;
           enough (existsb (moved env) (symbols _) = true) by (rewrite Ex in *; discriminate); apply existsb_exists; eauto; fail);
      try (inv_bind H'; injection H' as <-; simpl in *; apply (IHt _ E y Hy)).
    - unfold expr_in_env in Ex. simpl in Ex. rewrite orb_false_r in Ex. pose proof Ex as Mv. unfold moved in Ex.
      destruct (lookup x env) as [u|] eqn:L; [|discriminate]. injection H' as <-. right. exists x, u. simpl. auto.
    - inv_bind H'. inv_bind H'. apply Piecewise_shape in H'. destruct H' as (-> & L & _). simpl in Hy.
      rewrite (map_fst_combine _ _ _ (@symbols N)) in Hy by auto. apply in_sunions in Hy. destruct Hy as (m & Hm & Hy). apply in_map_iff in Hm.
      destruct Hm as (t' & <- & Ht'). apply mapM_Forall2 in E. destruct (Forall2_in_r _ _ _ _ _ _ E Ht') as (p & Hp & Ep).
      rewrite Forall_forall in H. destruct (H p Hp) as (IH & _). destruct (IH _ Ep y Hy) as [(A & B)|(x & u & A & B)].
      + left. split; auto. simpl. apply in_sunions. exists (symbols (fst p)). split; auto. apply in_map_iff. eauto.
      + right. exists x, u. split; auto. simpl. apply in_sunions. exists (symbols (fst p)). split; auto. apply in_map_iff. eauto.
    - inv_bind H'. assert (t' = EOr r) as ->. { unfold EventOr in H'. inv_bind H'. now injection H' as <-. }
      simpl in Hy. apply in_sunions in Hy. destruct Hy as (m & Hm & Hy). apply in_map_iff in Hm.
      destruct Hm as (t' & <- & Ht'). apply mapM_Forall2 in E. destruct (Forall2_in_r _ _ _ _ _ _ E Ht') as (p & Hp & Ep).
      rewrite Forall_forall in H. destruct (H p Hp _ Ep y Hy) as [(A & B)|(x & u & A & B)].
      + left. split; auto. simpl. apply in_sunions. exists (symbols p). split; auto. apply in_map_iff. eauto.
      + right. exists x, u. split; auto. simpl. apply in_sunions. exists (symbols p). split; auto. apply in_map_iff. eauto.
    - inv_bind H'. assert (t' = EAnd r) as ->. { unfold EventAnd in H'. inv_bind H'. now injection H' as <-. }
      simpl in Hy. apply in_sunions in Hy. destruct Hy as (m & Hm & Hy). apply in_map_iff in Hm.
      destruct Hm as (t' & <- & Ht'). apply mapM_Forall2 in E. destruct (Forall2_in_r _ _ _ _ _ _ E Ht') as (p & Hp & Ep).
      rewrite Forall_forall in H. destruct (H p Hp _ Ep y Hy) as [(A & B)|(x & u & A & B)].
      + left. split; auto. simpl. apply in_sunions. exists (symbols p). split; auto. apply in_map_iff. eauto.
      + right. exists x, u. split; auto. simpl. apply in_sunions. exists (symbols p). split; auto. apply in_map_iff. eauto.
  Qed.
  Lemma not_in_env : forall (t : tr) env, expr_in_env t env = false <-> forall x, In x (symbols t) -> moved env x = false.
  Proof.
    intros t env. unfold expr_in_env. split.
    - intros H x Hx. destruct (moved env x) eqn:M; auto. rewrite <- H. symmetry. apply existsb_exists. eauto.
    - intros H. destruct (existsb _ _) eqn:E; auto. apply existsb_exists in E. destruct E as (x & Hx & M). rewrite <- M. auto.
  Qed.

  (** an environment without cycles: the loop stops within as many rounds as the ranks allow *)
  Definition ranked (env : tenv (N:=N)) (rank : string -> nat) : Prop :=
    forall x u y, moved env x = true -> lookup x env = Some u -> In y (symbols u) -> moved env y = true -> (rank y < rank x)%nat.
  Lemma substitute_stable : forall env rank, ranked env rank -> forall n t,
    (forall x, In x (symbols t) -> moved env x = true -> (rank x < n)%nat) ->
    (forall k, substitute io po fuel (n + k) env t = substitute io po fuel n env t) /\
    (forall t', substitute io po fuel n env t = Ok t' -> expr_in_env t' env = false).
  Proof.
    intros env rank Rk. induction n; intros t Hn.
    - assert (E : expr_in_env t env = false).
      { apply not_in_env. intros x Hx. destruct (moved env x) eqn:M; auto. specialize (Hn x Hx M). lia. }
      split; [intros k; destruct k; cbn [plus substitute]; rewrite E; auto|]. intros t'. cbn [substitute]. rewrite E. intros [= <-]. auto.
    - destruct (expr_in_env t env) eqn:E.
      + destruct (subs io po fuel env t) as [t1|] eqn:S.
        * destruct (IHn t1) as (A & B).
          { intros y Hy M. destruct (subs_symbols _ _ _ S y Hy) as [(_ & K)|(x & u & Hx & Mx & Lx & Hyu)]; [congruence|].
            specialize (Rk x u y Mx Lx Hyu M). specialize (Hn x Hx Mx). lia. }
          split; [intros k|intros t']; cbn [plus substitute]; rewrite E, S; cbn [bind]; auto.
        * split; [intros k|intros t']; cbn [plus substitute]; rewrite E, S; cbn [bind]; auto. discriminate.
      + split; [intros k|intros t']; cbn [plus substitute]; rewrite E; auto. intros [= <-]. auto.
  Qed.

  Lemma subs_good : forall env, env_good env -> forall t t', good t -> subs io po fuel env t = Ok t' ->
    good t' /\ (realv t -> realv t') /\ (is_event t = true -> is_event t' = true).
  Proof.
    intros env Ge. induction t using tr_ind'; intros t' G H'; cbn [subs] in H';
      match type of H' with (if negb ?b then _ else _) = _ => destruct b; cbn [negb] in H'; [|injection H' as <-; auto] end;
      try (inv_bind H'; injection H' as <-; cbn [good] in G; destruct G as (G & Ru); destruct (IHt _ G E) as (A & B & _);
           cbn [good realv is_event]; tauto).
    - destruct (lookup x env) eqn:L; injection H' as <-; auto. destruct (Ge _ _ L) as (A & B). split; [auto|]. split; [auto|]. discriminate.
    - inv_bind H'. inv_bind H'. cbn [good] in G. destruct G as (_ & G).
      destruct (Piecewise_good _ _ _ H') as (A & B); [| |split; [auto|]; split; [auto|discriminate]].
      + apply mapM_Forall2 in E. clear E0 H'. apply Forall_forall. intros t'' Ht. destruct (Forall2_in_r _ _ _ _ _ _ E Ht) as (p & Hp & Ep).
        rewrite Forall_forall in H. destruct (H p Hp) as (IH & _). apply (All_In _ _ _ _ G) in Hp. destruct (IH t'') as (X & Y & _); tauto.
      + apply mapM_Forall2 in E0. clear E H'. apply Forall_forall. intros t'' Ht. destruct (Forall2_in_r _ _ _ _ _ _ E0 Ht) as (p & Hp & Ep).
        rewrite Forall_forall in H. destruct (H p Hp) as (_ & IH). apply (All_In _ _ _ _ G) in Hp. unfold gev. destruct (IH t'') as (X & Y & Z); tauto.
    - inv_bind H'. injection H' as <-.
      destruct k; cbn [good] in G; destruct G as (G & Ru & G'); destruct (IHt _ G E) as (A & B & _); cbn [good realv is_event]; tauto.
    - inv_bind H'. apply mapM_Forall2 in E. cbn [good] in G. destruct G as (_ & G). apply EventOr_ok in H'.
      + destruct H' as (-> & (A & B)). split; [auto|]. split; [intros []|auto].
      + apply Forall_forall. intros t'' Ht. destruct (Forall2_in_r _ _ _ _ _ _ E Ht) as (p & Hp & Ep).
        rewrite Forall_forall in H. destruct (All_In _ _ _ _ G Hp) as (G1 & G2). destruct (H p Hp t'') as (X & Y & Z); auto. split; auto.
    - inv_bind H'. apply mapM_Forall2 in E. cbn [good] in G. destruct G as (_ & G). apply EventAnd_ok in H'.
      + destruct H' as (-> & (A & B)). split; [auto|]. split; [intros []|auto].
      + apply Forall_forall. intros t'' Ht. destruct (Forall2_in_r _ _ _ _ _ _ E Ht) as (p & Hp & Ep).
        rewrite Forall_forall in H. destruct (All_In _ _ _ _ G Hp) as (G1 & G2). destruct (H p Hp t'') as (X & Y & Z); auto. split; auto.
  Qed.
  Lemma substitute_good : forall env, env_good env -> forall n t t', good t -> substitute io po fuel n env t = Ok t' ->
    good t' /\ (realv t -> realv t') /\ (is_event t = true -> is_event t' = true).
  Proof.
    intros env Ge. induction n; intros t t' G H; cbn [substitute] in H; destruct (expr_in_env t env); try discriminate; try (injection H as <-; auto).
    inv_bind H. destruct (subs_good env Ge _ _ G E) as (A & B & C). destruct (IHn _ _ A H) as (A' & B' & C'). auto.
  Qed.

  Lemma subs_total : forall env, env_good env -> (forall x u, lookup x env = Some u -> nopiece u) ->
    forall t, good t -> nopiece t -> exists t', subs io po fuel env t = Ok t' /\ nopiece t'.
  Proof.
    intros env Ge Np. induction t using tr_ind'; intros G P; cbn [subs];
      match goal with |- context [if negb ?b then _ else _] => destruct b; cbn [negb]; [|eexists; split; [reflexivity|exact P]] end;
      try (cbn [good] in G; destruct (IHt (proj1 G) P) as (t' & -> & P'); cbn [bind]; eexists; split; [reflexivity|exact P']).
    - destruct (lookup x env) eqn:L; eexists; split; eauto.
    - destruct P.
    - assert (Gt : good t) by (destruct k; apply G). destruct (IHt Gt P) as (t' & -> & P'). cbn [bind]. eexists; split; [reflexivity|exact P'].
    - cbn [good] in G. destruct G as (Ne & G). cbn [nopiece] in P.
      assert (Q : exists l', mapM (subs io po fuel env) l = Ok l' /\ All nopiece l').
      { clear Ne. induction l as [|e l IH]; [exists []; split; [reflexivity|exact I]|]. inversion H as [|? ? He Hl]; subst.
        destruct G as ((Ge1 & Ge2) & G), P as (Pe & P). destruct (He Ge1 Pe) as (e' & E1 & P1). destruct (IH Hl G P) as (l' & E2 & P2).
        exists (e' :: l'). simpl. rewrite E1. simpl. rewrite E2. simpl. auto. }
      destruct Q as (l' & E & P'). rewrite E. cbn [bind]. exists (EOr l'). split; [|exact P']. apply mapM_Forall2 in E. apply EventOr_total.
      + intros ->. inversion E; congruence.
      + apply Forall_forall. intros t'' Ht. destruct (Forall2_in_r _ _ _ _ _ _ E Ht) as (p & Hp & Ep).
        destruct (All_In _ _ _ _ G Hp) as (G1 & G2). destruct (subs_good env Ge _ _ G1 Ep) as (X & Y & Z). split; auto.
    - cbn [good] in G. destruct G as (Ne & G). cbn [nopiece] in P.
      assert (Q : exists l', mapM (subs io po fuel env) l = Ok l' /\ All nopiece l').
      { clear Ne. induction l as [|e l IH]; [exists []; split; [reflexivity|exact I]|]. inversion H as [|? ? He Hl]; subst.
        destruct G as ((Ge1 & Ge2) & G), P as (Pe & P). destruct (He Ge1 Pe) as (e' & E1 & P1). destruct (IH Hl G P) as (l' & E2 & P2).
        exists (e' :: l'). simpl. rewrite E1. simpl. rewrite E2. simpl. auto. }
      destruct Q as (l' & E & P'). rewrite E. cbn [bind]. exists (EAnd l'). split; [|exact P']. apply mapM_Forall2 in E. apply EventAnd_total.
      + intros ->. inversion E; congruence.
      + apply Forall_forall. intros t'' Ht. destruct (Forall2_in_r _ _ _ _ _ _ E Ht) as (p & Hp & Ep).
        destruct (All_In _ _ _ _ G Hp) as (G1 & G2). destruct (subs_good env Ge _ _ G1 Ep) as (X & Y & Z). split; auto.
  Qed.
  Lemma substitute_total : forall env rank, ranked env rank -> env_good env -> (forall x u, lookup x env = Some u -> nopiece u) ->
    forall n t, (forall x, In x (symbols t) -> moved env x = true -> (rank x < n)%nat) -> good t -> nopiece t ->
    exists t', substitute io po fuel n env t = Ok t'.
  Proof.
    intros env rank Rk Ge Np. induction n; intros t Hn G P.
    - cbn [substitute]. assert (E : expr_in_env t env = false).
      { apply not_in_env. intros x Hx. destruct (moved env x) eqn:M; auto. specialize (Hn x Hx M). lia. }
      rewrite E. eauto.
    - cbn [substitute]. destruct (expr_in_env t env) eqn:E; [|eauto].
      destruct (subs_total env Ge Np t G P) as (t1 & S & P1). rewrite S. cbn [bind]. apply IHn; auto.
      + intros y Hy M. destruct (subs_symbols _ _ _ S y Hy) as [(_ & K)|(x & u & Hx & Mx & Lx & Hyu)]; [congruence|].
        specialize (Rk x u y Mx Lx Hyu M). specialize (Hn x Hx Mx). lia.
      + now apply (subs_good env Ge t).
  Qed.
End Arith.

Section Built.
  Context {N : numsys} (io : iterorder N) (po : polyoracle N) (fuel : nat).

  Lemma lookup_app : forall A (l m : list (string * A)) x,
    lookup x (l ++ m) = match lookup x l with Some t => Some t | None => lookup x m end.
  Proof. induction l as [|(y, t) l IH]; intros m x; simpl; auto. destruct (String.eqb x y); auto. Qed.
  Lemma lookup_in : forall A (l : list (string * A)) x, In x (map fst l) <-> exists t, lookup x l = Some t.
  Proof.
    induction l as [|(y, t) l IH]; intros x; simpl; [split; [tauto|intros (t & [=])]|].
    destruct (String.eqb_spec x y) as [->|Ne]; [split; eauto|]. rewrite <- IH. split; [intros [K|K]; [congruence|auto]|auto].
  Qed.
  Fixpoint index (x : string) (l : list string) : nat :=
    match l with [] => O | y :: l => if String.eqb x y then O else S (index x l) end.
  Lemma index_lt : forall l x, In x l -> (index x l < List.length l)%nat.
  Proof.
    induction l as [|y l IH]; intros x; simpl; [tauto|]. destruct (String.eqb_spec x y) as [->|Ne]; [lia|].
    intros [K|K]; [congruence|]. specialize (IH x K). lia.
  Qed.
  Lemma index_app : forall l m x, In x l -> index x (l ++ m) = index x l.
  Proof.
    induction l as [|y l IH]; intros m x; simpl; [tauto|]. destruct (String.eqb_spec x y) as [->|Ne]; auto.
    intros [K|K]; [congruence|]. now rewrite IH.
  Qed.
  Lemma index_new : forall l x, ~ In x l -> index x (l ++ [x]) = List.length l.
  Proof.
    induction l as [|y l IH]; intros x; simpl; [now rewrite String.eqb_refl|]. intros H.
    destruct (String.eqb_spec x y) as [->|Ne]; [exfalso; auto|]. now rewrite IH by auto.
  Qed.

  Lemma built_facts : forall X (env : tenv (N:=N)), env_built X env ->
    In X (map fst env) /\ moved env X = false /\
    (forall x u, lookup x env = Some u -> x = X \/ moved env x = true) /\
    (forall x u, lookup x env = Some u -> moved env x = true ->
       forall y, In y (symbols u) -> In y (map fst env) /\ (index y (map fst env) < index x (map fst env))%nat).
  Proof.
    induction 1 as [|env y t Hb IH Fr Sy].
    - simpl. ands; auto.
      + unfold moved. simpl. rewrite String.eqb_refl. simpl. now rewrite String.eqb_refl.
      + intros x u. destruct (String.eqb_spec x X); [auto|discriminate].
      + intros x u. destruct (String.eqb_spec x X) as [->|]; [|discriminate]. intros _. unfold moved. simpl. rewrite String.eqb_refl. simpl.
        rewrite String.eqb_refl. discriminate.
    - destruct IH as (I1 & I2 & I3 & I4). rewrite map_app. simpl map.
      assert (Old : forall x, In x (map fst env) -> lookup x (env ++ [(y, t)]) = lookup x env).
      { intros x Hx. rewrite lookup_app. apply lookup_in in Hx. destruct Hx as (u & ->). auto. }
      assert (OldM : forall x, In x (map fst env) -> moved (env ++ [(y, t)]) x = moved env x).
      { intros x Hx. unfold moved. now rewrite Old. }
      assert (New : forall x u, lookup x (env ++ [(y, t)]) = Some u -> (In x (map fst env) /\ lookup x env = Some u) \/ (x = y /\ u = t)).
      { intros x u. rewrite lookup_app. destruct (lookup x env) as [v|] eqn:L.
        - intros [= <-]. left. split; auto. apply lookup_in. eauto.
        - simpl. destruct (String.eqb_spec x y) as [->|]; [|discriminate]. intros [= <-]. auto. }
      assert (Ly : lookup y (env ++ [(y, t)]) = Some t).
      { rewrite lookup_app. destruct (lookup y env) eqn:L; [exfalso; apply Fr, lookup_in; eauto|]. simpl. now rewrite String.eqb_refl. }
      ands.
      + apply in_or_app. auto.
      + now rewrite OldM.
      + intros x u L. apply New in L. destruct L as [(Hx & L)|(-> & ->)].
        * rewrite OldM by auto. eauto.
        * right. unfold moved. rewrite Ly. apply negb_true_iff. destruct (teqb t (TId y)) eqn:Q; auto. exfalso.
          apply Fr, Sy. destruct t; try discriminate. simpl in Q. apply String.eqb_eq in Q. subst. now left.
      + intros x u L M z Hz. apply New in L. destruct L as [(Hx & L)|(-> & ->)].
        * rewrite OldM in M by auto. destruct (I4 x u L M z Hz) as (Z1 & Z2). split; [apply in_or_app; auto|].
          now rewrite !index_app by auto.
        * apply Sy in Hz. split; [apply in_or_app; auto|]. rewrite index_app, index_new by auto. now apply index_lt.
  Qed.

  (** For an environment env_built by transform() the loop ends within as many rounds as there
      are definitions, and what remains mentions the base variable only. *)
  Theorem substitute_built : forall X env t, env_built X env -> (forall s, In s (symbols t) -> In s (map fst env)) ->
    (forall k, substitute io po fuel (List.length env + k) env t = substitute io po fuel (List.length env) env t) /\
    (forall t', substitute io po fuel (List.length env) env t = Ok t' -> forall s, In s (symbols t') -> s = X).
  Proof.
    intros X env t B Sy. destruct (built_facts X env B) as (F1 & F2 & F3 & F4).
    assert (Rk : ranked env (fun x => index x (map fst env))).
    { intros x u y Mx Lx Hy My. now apply (F4 x u Lx Mx y). }
    destruct (substitute_stable io po fuel env _ Rk (List.length env) t) as (A & C).
    { intros x Hx M. rewrite <- (map_length fst). apply index_lt. auto. }
    split; auto. intros t' H s Hs.
    assert (Dom : forall n t t', (forall s, In s (symbols t) -> In s (map fst env)) -> substitute io po fuel n env t = Ok t' ->
      forall s, In s (symbols t') -> In s (map fst env)).
    { clear -F4. induction n; intros t t' Sy H; cbn [substitute] in H; destruct (expr_in_env t env); try discriminate; try (injection H as <-; exact Sy).
      inv_bind H. eapply IHn; [|exact H]. intros y Hy. destruct (subs_symbols io po fuel _ _ _ E y Hy) as [(K & _)|(x & u & Hx & Mx & Lx & Hyu)]; auto.
      eapply F4; eauto. }
    pose proof (Dom _ _ _ Sy H s Hs) as D. apply lookup_in in D. destruct D as (u & L).
    destruct (F3 s u L) as [->|M]; auto. specialize (C t' H). rewrite (proj1 (not_in_env t' env) C s Hs) in M. discriminate.
  Qed.
  Theorem substitute_built_total : forall X env t, env_built X env -> (forall s, In s (symbols t) -> In s (map fst env)) ->
    env_good env -> (forall x u, lookup x env = Some u -> nopiece u) -> good t -> nopiece t ->
    exists t', substitute io po fuel (List.length env) env t = Ok t'.
  Proof.
    intros X env t B Sy Ge Np G P. destruct (built_facts X env B) as (F1 & F2 & F3 & F4).
    apply (substitute_total io po fuel env (fun x => index x (map fst env))); auto.
    - intros x u y Mx Lx Hy My. now apply (F4 x u Lx Mx y).
    - intros x Hx M. rewrite <- (map_length fst). apply index_lt. auto.
  Qed.
End Built.

(** The numerical solver returns when there is a real root and no repeated one. *)
Section Numeric.
  Context {N : numsys} (io : iterorder N) (po : polyoracle N).
  Notation num := (num N).
  Lemma Rprod_left : forall rs x y, (forall r, In r rs -> x < r) -> (forall r, In r rs -> y < r) -> 0 < Rprod rs x * Rprod rs y.
  Proof.
    induction rs as [|r rs IH]; intros x y Hx Hy; simpl; [lra|].
    specialize (IH x y (fun r Hr => Hx r (or_intror Hr)) (fun r Hr => Hy r (or_intror Hr))).
    specialize (Hx r (or_introl eq_refl)). specialize (Hy r (or_introl eq_refl)).
    replace ((x - r) * Rprod rs x * ((y - r) * Rprod rs y)) with ((x - r) * (y - r) * (Rprod rs x * Rprod rs y)) by ring.
    apply Rmult_lt_0_compat; auto. replace ((x - r) * (y - r)) with ((r - x) * (r - y)) by ring. apply Rmult_lt_0_compat; lra.
  Qed.
  Lemma sorted_strict : forall l : list num, sorted nleb l -> NoDup (map toR l) -> ForallOrdPairs (fun a b => @toR N a < toR b) l.
  Proof.
    induction 1 as [|x l F S IH]; intros Nd; constructor; inversion Nd; subst; auto.
    rewrite Forall_forall in *. intros y Hy. specialize (F y Hy). apply nleb_ok in F.
    destruct F as [F|F]; auto. exfalso. apply H1. rewrite F. now apply in_map.
  Qed.
  Lemma reduce_por_total : forall l, l <> [] -> Forall wf l -> Forall real_set l -> exists r, make_union io l = Ok r.
  Proof.
    intros [|a l] Ne W R; [congruence|]. unfold make_union. simpl. inversion W; inversion R; subst. clear Ne W R.
    revert a H1 H5. induction l as [|b l IH]; intros a Wa Ra; simpl; [eauto|].
    inversion H2; inversion H6; subst. destruct (por_total io a b) as (r & E); auto. rewrite E. simpl.
    apply por_f in E; auto. destruct E as (A & _ & B & _). apply IH; auto.
  Qed.
  Theorem solve_ineq_num_total : forall cs b strict roots, po_nroots po cs b = Some roots -> roots <> [] ->
    NoDup (map toR roots) -> exists s, solve_ineq_num io po cs b strict = Ok s.
  Proof.
    intros cs b strict roots E Ne Nd. unfold solve_ineq_num, nroots. rewrite E. cbn [bind].
    pose proof (sort_perm nleb roots) as PS. pose proof (sort_sorted nleb nleb_total nleb_trans roots) as SS.
    destruct (sort nleb roots) as [|z zs].
    { apply Permutation_sym, Permutation_nil in PS. congruence. }
    assert (Nd' : NoDup (map toR (z :: zs))) by (eapply Permutation_NoDup; [apply (Permutation_map toR PS)|auto]).
    pose proof (sorted_strict _ SS Nd') as St. inversion St as [|? ? Fz Sz]; subst. rewrite Forall_forall in Fz.
    destruct (Interval_ok NInf (Fin z) strict strict) as (i0 & E0 & _).
    { unfold pos. simpl. pose proof (ord_Fin (toR z)). unfold ord in *. lra. }
    rewrite E0. cbn [bind]. destruct (mids_total strict zs z Fz Sz) as (jj & E1). rewrite E1. cbn [bind]. cbv zeta.
    pose proof (Interval_wf _ _ _ _ _ E0) as W0.
    apply mids_ok in E1. destruct E1 as (Len & _ & _ & P1 & _).
    set (p1 := hd z (probes z zs)).
    assert (H1 : toR z < toR p1 /\ forall y, In y zs -> toR p1 < toR y).
    { unfold p1. destruct zs as [|y zs]; simpl.
      - rewrite nadd_ok, nhalf_ok. split; [lra|tauto].
      - rewrite nmul_ok, nadd_ok, nhalf_ok. specialize (Fz y (or_introl eq_refl)) as Fy. split; [lra|].
        intros y' [<-|Hy']; [lra|]. inversion Sz as [|? ? K _]; subst. rewrite Forall_forall in K. specialize (K y' Hy'). lra. }
    destruct H1 as (Hp1 & Hp1').
    pose proof (po_nroots_ok _ po _ _ _ E) as (q & Eq & Sq).
    assert (Opp : (Rpoly cs (toR z - / 2) - toR b) * (Rpoly cs (toR p1) - toR b) < 0).
    { rewrite !Eq. rewrite !(Rprod_perm _ _ _ (Permutation_map toR PS)). simpl.
      assert (Q : 0 < q (toR z - / 2) * q (toR p1)).
      { destruct Sq as [Sq|Sq]; [apply Rmult_lt_0_compat; auto|]. replace (q (toR z - / 2) * q (toR p1)) with (- q (toR z - / 2) * - q (toR p1)) by ring.
        apply Rmult_lt_0_compat; [specialize (Sq (toR z - / 2))|specialize (Sq (toR p1))]; lra. }
      assert (P : 0 < Rprod (map toR zs) (toR z - / 2) * Rprod (map toR zs) (toR p1)).
      { apply Rprod_left; intros r Hr; apply in_map_iff in Hr; destruct Hr as (y & <- & Hy); [specialize (Fz y Hy); lra|auto]. }
      set (A := Rprod (map toR zs) (toR z - / 2)) in *. set (B := Rprod (map toR zs) (toR p1)) in *.
      replace ((toR z - / 2 - toR z) * A * q (toR z - / 2) * ((toR p1 - toR z) * B * q (toR p1)))
        with (- (/ 2 * (toR p1 - toR z) * ((A * B) * (q (toR z - / 2) * q (toR p1))))) by field.
      assert (0 < / 2 * (toR p1 - toR z)) by (apply Rmult_lt_0_compat; lra).
      pose proof (Rmult_lt_0_compat _ _ H (Rmult_lt_0_compat _ _ P Q)). lra. }
    set (keep := filter _ _).
    assert (K : keep <> []).
    { assert (exists ip, In ip (combine (i0 :: jj) (nsub z nhalf :: probes z zs)) /\ nltb (peval cs (snd ip)) b = true) as (ip & I1 & I2).
      { destruct (Rlt_dec (Rpoly cs (toR z - / 2) - toR b) 0) as [L|L].
        - exists (i0, nsub z nhalf). split; [now left|]. simpl. apply nltb_ok. rewrite peval_ok, nsub_ok, nhalf_ok. lra.
        - assert (L' : Rpoly cs (toR p1) - toR b < 0).
          { apply Rnot_lt_le in L. destruct (Rle_dec 0 (Rpoly cs (toR p1) - toR b)) as [M|M]; [|lra].
            pose proof (Rmult_le_pos _ _ L M). lra. }
          assert (exists p ps, probes z zs = p :: ps) as (p & ps & Ep) by (destruct zs; simpl; eauto).
          unfold p1 in L'. rewrite Ep in *. simpl in L'. destruct jj as [|j jj]; [discriminate|].
          exists (j, p). split; [right; now left|]. simpl. apply nltb_ok. rewrite peval_ok. lra. }
      intros Z. assert (In ip keep) by (unfold keep; apply filter_In; auto). rewrite Z in H. destruct H. }
    apply reduce_por_total.
    - destruct keep; [congruence|discriminate].
    - apply Forall_forall. intros t Ht. apply in_map_iff in Ht. destruct Ht as ((i & p) & <- & Hp). unfold keep in Hp. apply filter_In in Hp.
      destruct Hp as ([[= <- <-]|Hp] & _); [exact W0|]. apply (P1 i p Hp).
    - apply Forall_forall. intros t Ht. apply in_map_iff in Ht. destruct Ht as ((i & p) & <- & Hp). exact I.
  Qed.
  (** a repeated root makes it fail *)
  Theorem solve_ineq_num_repeated : forall cs b strict z, po_nroots po cs b = Some [z; z] ->
    solve_ineq_num io po cs b strict = Raise AssertionError.
  Proof.
    intros cs b strict z E. unfold solve_ineq_num, nroots. rewrite E. cbn [bind].
    assert (L : nleb z z = true) by (apply nleb_ok; lra). change (sort nleb [z; z]) with (if nleb z z then [z; z] else [z; z]). rewrite L. cbn [mids].
    destruct (Interval_ok NInf (Fin z) strict strict) as (i0 & E0 & _).
    { unfold pos. simpl. pose proof (ord_Fin (toR z)). unfold ord in *. lra. }
    rewrite E0. cbn [bind].
    assert (Interval_ (Fin z) (Fin z) strict strict = Raise (A:=interval N) AssertionError) as ->; [|reflexivity].
    unfold Interval_. destruct (eltb (Fin z) (Fin z)) eqn:Q; [|reflexivity]. apply eltb_elt in Q. simpl in Q. lra.
  Qed.
End Numeric.
