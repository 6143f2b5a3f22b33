(** Distributions for the examples: finite distributions on integers and the uniform
    distribution on [0,1].  They meet the assumptions of SpeSpec.v and can be computed with. *)
From Coq Require Import List Bool String Reals Lra Lia ZArith QArith Qabs Qreals FunctionalExtensionality.
From Verif Require Import Base Num Sets SetSpec SetIv SetBuilt Poly Trans TransSpec Logs Spe SpeSpec SpeFacts SpeEq Uniform.
Import ListNotations.
Local Open Scope R_scope.

Inductive edist := DFin (l : list (Z * Q)) | DUnif.
Definition mass (P : Z -> bool) (l : list (Z * Q)) : Q := fold_right (fun p s => if P (fst p) then (snd p + s)%Q else s) 0%Q l.
Definition qclamp (q : Q) : Q := if Qle_bool q 0 then 0%Q else if Qle_bool 1 q then 1%Q else q.
Definition ecdf (d : edist) (x : ext Q) : Q :=
  match d, x with
  | _, NInf => 0%Q
  | _, PInf => 1%Q
  | DFin l, Fin q => Qred (mass (fun z => Qle_bool (inject_Z z) q) l)
  | DUnif, Fin q => qclamp q
  end.
Definition epdf (d : edist) (x : ext Q) : Q :=
  match d, x with
  | DFin l, Fin q => Qred (mass (fun z => Qeq_bool (inject_Z z) q) l)
  | DUnif, Fin q => if Qle_bool 0 q && Qle_bool q 1 then 1%Q else 0%Q
  | _, _ => 0%Q
  end.
Definition edist_eqb (a b : edist) : bool :=
  match a, b with
  | DFin l, DFin m => list_eqb (fun p q => Z.eqb (fst p) (fst q) && Qeq_bool (snd p) (snd q)) l m
  | DUnif, DUnif => true
  | _, _ => false
  end.
Definition DQ : distsys QS LQ := Distsys QS LQ edist edist_eqb ecdf epdf.
Definition elaw (d : dist DQ) : (fval -> R) -> R :=
  match d with
  | DFin l => fun f => sumR (map (fun p => f (FNum (IZR (fst p))) * Q2R (snd p)) l)
  | DUnif => unif
  end.
Definition fin_ok (l : list (Z * Q)) : Prop := Forall (fun p => 0 <= snd p)%Q l /\ (Qsum (map snd l) == 1)%Q.

Lemma elaw_eq : eq_dist (D:=DQ) elaw.
Proof.
  intros [l|] [m|] H f; try discriminate; auto. cbn [elaw]. cbn [deqb DQ edist_eqb] in H. revert m H. induction l as [|p l IH]; intros [|q m] H; try discriminate; auto.
  cbn [list_eqb] in H. apply andb_prop in H. destruct H as (H & H2). apply andb_prop in H. destruct H as (H0 & H1). apply Z.eqb_eq in H0. apply Qeq_bool_iff in H1. unfold sumR in *. cbn [map fold_right]. rewrite H0, (Qeq_eqR _ _ H1), (IH m H2). reflexivity.
Qed.
Lemma mass_nonneg : forall P l, Forall (fun p => 0 <= snd p)%Q l -> (0 <= mass P l)%Q.
Proof. intros P l F. induction F as [|p l Hp F IH]; [apply Qle_refl|]. cbn [mass fold_right]. fold (mass P l). destruct (P (fst p)); auto. apply (Qplus_le_compat 0 (snd p) 0); auto. Qed.
Lemma mass_sum : forall (P : Z -> bool) (X : fval -> Prop) l, (forall z, P z = true <-> X (FNum (IZR z))) ->
  Q2R (mass P l) = sumR (map (fun p => ind X (FNum (IZR (fst p))) * Q2R (snd p)) l).
Proof.
  intros P X l H. induction l as [|p l IH]; [apply Q2R_0|]. cbn [mass fold_right map]. fold (mass P l). unfold sumR in *. cbn [fold_right]. rewrite <- IH. specialize (H (fst p)). destruct (P (fst p)).
  - rewrite ind_true by tauto. rewrite Q2R_plus. ring.
  - rewrite ind_false by (intros K; apply H in K; discriminate). ring.
Qed.
Lemma fin_total : forall l, (Qsum (map snd l) == 1)%Q -> sumR (map (fun p : Z * Q => 1 * Q2R (snd p)) l) = 1.
Proof.
  intros l H. transitivity (Q2R 1); [|unfold Q2R; cbn; lra]. rewrite <- (Qeq_eqR _ _ H). clear H. induction l as [|p l IH]; [symmetry; apply Q2R_0|]. unfold sumR in *. cbn [map fold_right Qsum]. fold (Qsum (map snd l)). rewrite Q2R_plus, IH. lra.
Qed.
Lemma Qle_bool_R : forall a b, Qle_bool a b = true <-> Q2R a <= Q2R b.
Proof. intros a b. rewrite Qle_bool_iff. split; [apply Qle_Rle|apply Rle_Qle]. Qed.
Lemma Q2R_Z : forall z, Q2R (inject_Z z) = IZR z.
Proof. intros z. unfold Q2R, inject_Z. cbn. field. Qed.
Lemma lqP : forall q, (0 <= q)%Q -> @toP LQ (Qred q) = Q2R q.
Proof. intros q H. cbn. unfold lq_P. rewrite <- (Qred_R q). apply Qeq_eqR. apply Qabs_pos. now rewrite Qred_correct. Qed.

Theorem fin_dist : forall l, fin_ok l -> dist_ok (D:=DQ) elaw true (DFin l).
Proof.
  intros l (Nn & T). assert (L : law (elaw (DFin l))).
  { split; cbn [elaw].
    - intros f g _ _. clear. induction l as [|p l IH]; unfold sumR in *; cbn [map fold_right]; [lra|rewrite IH; ring].
    - intros c f _. clear. induction l as [|p l IH]; unfold sumR in *; cbn [map fold_right]; [lra|rewrite IH; ring].
    - intros f _ H. apply sumR_nonneg. apply Forall_map. eapply Forall_impl; [|exact Nn]. intros p Hp. apply Rmult_le_pos; auto. rewrite <- Q2R_0. now apply Qle_Rle.
    - now apply fin_total. }
  split; auto.
  - cbn [elaw]. etransitivity; [|exact (fin_total l T)]. f_equal. apply map_ext. intros p. rewrite ind_true; [auto|]. eexists; reflexivity.
  - intros [|q|].
    + change (@toP LQ (@logcdf QS LQ DQ (DFin l) NInf)) with (@toP LQ 0%Q). transitivity 0; [exact (lninf_ok LQ)|]. symmetry. apply (law_null L (fun _ => False)); [|auto with bnd|].
      * replace (ind (fun _ : fval => False)) with (fun _ : fval => 0) by (extensionality v; symmetry; now apply ind_false). apply (law_const L).
      * intros v _. apply ind_false. intros (r & _ & [[]|K]). discriminate.
    + change (@toP LQ (@logcdf QS LQ DQ (DFin l) (Fin q))) with (@toP LQ (Qred (mass (fun z => Qle_bool (inject_Z z) q) l))). rewrite lqP by (now apply mass_nonneg). cbn [elaw]. apply mass_sum.
      intros z. rewrite Qle_bool_R, Q2R_Z. unfold at_most. split.
      * intros H. eexists. split; [reflexivity|]. now apply ele_fin.
      * intros (r & E & H). injection E as <-. now apply ele_fin in H.
    + change (@toP LQ (@logcdf QS LQ DQ (DFin l) PInf)) with (@toP LQ 1%Q). transitivity 1; [exact (lzero_ok LQ)|]. cbn [elaw]. etransitivity; [symmetry; exact (fin_total l T)|]. f_equal. apply map_ext. intros p. rewrite ind_true; auto. eexists. split; [reflexivity|]. left. exact Logic.I.
  - discriminate.
  - intros _. cbn [elaw]. etransitivity; [|exact (fin_total l T)]. f_equal. apply map_ext. intros p. rewrite ind_true; [auto|]. eexists; reflexivity.
  - intros _ q. change (@toP LQ (@logpdf QS LQ DQ (DFin l) (Fin q))) with (@toP LQ (Qred (mass (fun z => Qeq_bool (inject_Z z) q) l))). rewrite lqP by (now apply mass_nonneg). cbn [elaw]. apply mass_sum.
    intros z. rewrite Qeq_bool_iff. split.
    + intros H. cbn. rewrite <- (Qeq_eqR _ _ H), Q2R_Z. reflexivity.
    + intros H. injection H as H. apply eqR_Qeq. rewrite Q2R_Z. symmetry. exact H.
Qed.
Theorem unif_dist : dist_ok (D:=DQ) elaw false DUnif.
Proof.
  split; try discriminate.
  - exact unif_law.
  - exact unif_num.
  - intros x. cbn [elaw]. rewrite unif_cdf. destruct x as [|q|].
    + exact (lninf_ok LQ).
    + change (@toP LQ (@logcdf QS LQ DQ DUnif (Fin q))) with (lq_P (qclamp q)). cbn [eR emap clamp]. change (@toR QS q) with (Q2R q). unfold qclamp. destruct (Qle_bool q 0) eqn:E0; [|destruct (Qle_bool 1 q) eqn:E1].
      * apply Qle_bool_R in E0. rewrite Q2R_0 in E0. rewrite Rmax_left, Rmin_right by lra. exact (lninf_ok LQ).
      * apply Qle_bool_R in E1. replace (Q2R 1) with 1 in E1 by (unfold Q2R; cbn; lra). rewrite Rmax_right, Rmin_left by lra. exact (lzero_ok LQ).
      * assert (K0 : ~ Q2R q <= 0) by (rewrite <- Q2R_0, <- Qle_bool_R; congruence). assert (K1 : ~ 1 <= Q2R q) by (replace 1 with (Q2R 1) by (unfold Q2R; cbn; lra); rewrite <- Qle_bool_R; congruence).
        rewrite Rmax_right, Rmin_right by lra. apply lq_P_pos. apply Rle_Qle. rewrite Q2R_0. lra.
    + exact (lzero_ok LQ).
  - intros _ r. apply unif_point.
Qed.
