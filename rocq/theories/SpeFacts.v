(** Facts about distributions and the meaning of sum-product expressions. *)
From Coq Require Import List Bool String Reals Lra Lia ZArith QArith Qreals FunctionalExtensionality.
From Verif Require Import Base Num Sets SetSpec Poly Trans TransSpec TransFacts InvProofs InvMain ArithProofs Logs Spe SpeSpec.
Import ListNotations.
Local Open Scope R_scope.

(** ** Bounded functions and laws *)
Lemma bnd_const : forall A c, bnd (fun _ : A => c).
Proof. intros A c. exists (Rabs c). intros; lra. Qed.
Lemma bnd_ind : forall A (P : A -> Prop), bnd (ind P).
Proof. intros A P. exists 1. intros a. unfold ind. destruct (dec (P a)); rewrite ?Rabs_R1, ?Rabs_R0; lra. Qed.
Lemma bnd_plus : forall A (f g : A -> R), bnd f -> bnd g -> bnd (fun a => f a + g a).
Proof. intros A f g (M & Hf) (K & Hg). exists (M + K). intro a. eapply Rle_trans; [apply Rabs_triang|]. specialize (Hf a). specialize (Hg a). lra. Qed.
Lemma bnd_mult : forall A (f g : A -> R), bnd f -> bnd g -> bnd (fun a => f a * g a).
Proof.
  intros A f g (M & Hf) (K & Hg). exists (M * K). intro a. rewrite Rabs_mult. apply Rmult_le_compat; auto using Rabs_pos.
Qed.
Lemma bnd_scale : forall A c (f : A -> R), bnd f -> bnd (fun a => c * f a).
Proof. intros. apply (bnd_mult _ (fun _ => c)); auto using bnd_const. Qed.
Lemma bnd_minus : forall A (f g : A -> R), bnd f -> bnd g -> bnd (fun a => f a - g a).
Proof.
  intros A f g Hf Hg. replace (fun a => f a - g a) with (fun a => f a + (-1) * g a) by (extensionality a; ring).
  apply bnd_plus; auto using bnd_scale.
Qed.
Lemma bnd_comp : forall A B (h : A -> B) (f : B -> R), bnd f -> bnd (fun a => f (h a)).
Proof. intros A B h f (M & H). exists M. auto. Qed.
Lemma bnd_sum : forall A B (l : list B) (f : B -> A -> R), (forall b, In b l -> bnd (f b)) -> bnd (fun a => sumR (map (fun b => f b a) l)).
Proof.
  induction l as [|b l IH]; intros f H; simpl; [apply bnd_const|]. apply bnd_plus; [apply H; simpl; auto|]. apply IH. intros; apply H; simpl; auto.
Qed.
#[export] Hint Resolve bnd_const bnd_ind bnd_plus bnd_mult bnd_scale bnd_minus bnd_comp : bnd.

Lemma ind_01 : forall A (P : A -> Prop) a, 0 <= ind P a <= 1.
Proof. intros. unfold ind. destruct (dec _); lra. Qed.
Lemma ind_true : forall A (P : A -> Prop) a, P a -> ind P a = 1.
Proof. intros. unfold ind. destruct (dec _); tauto. Qed.
Lemma ind_false : forall A (P : A -> Prop) a, ~ P a -> ind P a = 0.
Proof. intros. unfold ind. destruct (dec _); tauto. Qed.
Lemma ind_iff : forall A (P Q : A -> Prop), (forall a, P a <-> Q a) -> ind P = ind Q.
Proof. intros A P Q H. extensionality a. unfold ind. specialize (H a). destruct (dec (P a)), (dec (Q a)); tauto. Qed.
Lemma ind_eq : forall A B (P : A -> Prop) (Q : B -> Prop) a b, (P a <-> Q b) -> ind P a = ind Q b.
Proof. intros. unfold ind. destruct (dec (P a)), (dec (Q b)); tauto. Qed.
Lemma ind_and : forall A (P Q : A -> Prop) a, ind (fun a => P a /\ Q a) a = ind P a * ind Q a.
Proof. intros. unfold ind. destruct (dec (P a)), (dec (Q a)), (dec _); try lra; tauto. Qed.
Lemma ind_not : forall A (P : A -> Prop) a, ind (fun a => ~ P a) a = 1 - ind P a.
Proof. intros. unfold ind. destruct (dec (P a)), (dec _); try lra; tauto. Qed.
Lemma ind_or_disj : forall A (P Q : A -> Prop) a, ~ (P a /\ Q a) -> ind (fun a => P a \/ Q a) a = ind P a + ind Q a.
Proof. intros. unfold ind. destruct (dec (P a)), (dec (Q a)), (dec _); try lra; tauto. Qed.

Section Law.
  Context {A : Type} {I : (A -> R) -> R} (L : law I).
  Lemma law_ext : forall f g, (forall a, f a = g a) -> I f = I g.
  Proof. intros f g H. f_equal. extensionality a. auto. Qed.
  Lemma law_const : forall c, I (fun _ => c) = c.
  Proof.
    intro c. rewrite (law_ext (fun _ => c) (fun a => c * 1)) by (intro; ring). rewrite (law_scale L c (fun _ => 1)) by auto with bnd.
    rewrite (law_one L). ring.
  Qed.
  Lemma law_minus : forall f g, bnd f -> bnd g -> I (fun a => f a - g a) = I f - I g.
  Proof.
    intros f g Hf Hg. rewrite (law_ext _ (fun a => f a + (-1) * g a)) by (intro; ring).
    rewrite (law_plus L f (fun a => (-1) * g a)), (law_scale L) by auto with bnd. ring.
  Qed.
  Lemma law_mono : forall f g, bnd f -> bnd g -> (forall a, f a <= g a) -> I f <= I g.
  Proof.
    intros f g Hf Hg H. assert (0 <= I (fun a => g a - f a)); [|rewrite law_minus in *; auto; lra].
    apply (law_pos L); auto with bnd. intro a. specialize (H a). lra.
  Qed.
  Lemma law_bound : forall f M, (forall a, Rabs (f a) <= M) -> Rabs (I f) <= M.
  Proof.
    intros f M H. assert (bnd f) by (exists M; auto).
    assert (I f <= M) by (rewrite <- (law_const M); apply law_mono; auto with bnd; intro a; specialize (H a); apply Rle_trans with (Rabs (f a)); auto using Rle_abs).
    assert (- M <= I f).
    { rewrite <- (law_const (- M)). apply law_mono; auto with bnd. intro a. specialize (H a). pose proof (Rle_abs (- f a)) as K. rewrite Rabs_Ropp in K. lra. }
    apply Rabs_le. lra.
  Qed.
  Lemma law_01 : forall P, 0 <= I (ind P) <= 1.
  Proof.
    intro P. split.
    - apply (law_pos L); auto with bnd. intro. apply ind_01.
    - rewrite <- (law_one L). apply law_mono; auto with bnd. intro. apply ind_01.
  Qed.
  Lemma law_sum : forall B (l : list B) (f : B -> A -> R), (forall b, In b l -> bnd (f b)) ->
    I (fun a => sumR (map (fun b => f b a) l)) = sumR (map (fun b => I (f b)) l).
  Proof.
    induction l as [|b l IH]; intros f H; simpl; [apply law_const|].
    rewrite (law_plus L (f b) (fun a => sumR (map (fun b => f b a) l))).
    - f_equal. apply IH. intros; apply H; simpl; auto.
    - apply H; simpl; auto.
    - apply bnd_sum. intros; apply H; simpl; auto.
  Qed.
  Lemma law_scale_r : forall c f, bnd f -> I (fun a => f a * c) = I f * c.
  Proof. intros c f H. rewrite (law_ext _ (fun a => c * f a)) by (intro; ring). rewrite (law_scale L) by auto. ring. Qed.
  (** sets of probability zero do not matter *)
  Lemma law_null : forall (Z : A -> Prop) f, I (ind Z) = 0 -> bnd f -> (forall a, ~ Z a -> f a = 0) -> I f = 0.
  Proof.
    intros Z f H (M & Hf) H0.
    assert (B : forall a, - (M * ind Z a) <= f a <= M * ind Z a).
    { intro a. unfold ind. destruct (dec (Z a)) as [z|z].
      - specialize (Hf a). pose proof (Rle_abs (f a)). pose proof (Rle_abs (- f a)). rewrite Rabs_Ropp in *. lra.
      - rewrite (H0 a z). lra. }
    assert (Bf : bnd f) by (exists M; auto).
    assert (I f <= I (fun a => M * ind Z a)) by (apply law_mono; auto with bnd; intro a; apply B).
    assert (I (fun a => (- M) * ind Z a) <= I f) by (apply law_mono; auto with bnd; intro a; destruct (B a); lra).
    rewrite (law_scale L) in * by auto with bnd. rewrite H in *. lra.
  Qed.
  Lemma law_as : forall (Z : A -> Prop) f g, I (ind Z) = 0 -> bnd f -> bnd g -> (forall a, ~ Z a -> f a = g a) -> I f = I g.
  Proof.
    intros Z f g H Hf Hg E. apply Rminus_diag_uniq. rewrite <- law_minus by auto.
    apply (law_null Z); auto with bnd. intros a Ha. rewrite (E a Ha). ring.
  Qed.
  Lemma law_null_sub : forall Z Y : A -> Prop, I (ind Z) = 0 -> (forall a, Y a -> Z a) -> I (ind Y) = 0.
  Proof. intros Z Y H K. apply (law_null Z); auto with bnd. intros a Ha. apply ind_false. auto. Qed.
  Lemma law_full : forall P, I (ind P) = 1 -> I (ind (fun a => ~ P a)) = 0.
  Proof.
    intros P H. rewrite (law_ext _ (fun a => 1 - ind P a)) by (intro; apply ind_not). rewrite (law_minus (fun _ => 1)) by auto with bnd.
    rewrite H, (law_one L). ring.
  Qed.
  Lemma law_null_or : forall Z Y, I (ind Z) = 0 -> I (ind Y) = 0 -> I (ind (fun a => Z a \/ Y a)) = 0.
  Proof.
    intros Z Y HZ HY. apply Rle_antisym; [|apply law_01]. replace 0 with (I (fun a => ind Z a + ind Y a)).
    - apply law_mono; auto with bnd. intro a. unfold ind. destruct (dec (Z a)), (dec (Y a)), (dec _); try lra; tauto.
    - rewrite (law_plus L (ind Z) (ind Y)) by auto with bnd. lra.
  Qed.
End Law.

(** ** Transforms depend on their symbols only *)
Section Terms.
  Context {N : numsys}.
  Lemma All_In : forall A (P : A -> Prop) l a, All P l -> In a l -> P a.
  Proof. induction l as [|b l IH]; intros a H Ha; [destruct Ha|]. destruct H as (H1 & H2), Ha as [<-|Ha]; auto. Qed.
  Lemma All_intro : forall A (P : A -> Prop) l, (forall a, In a l -> P a) -> All P l.
  Proof. induction l as [|b l IH]; intros H; simpl; auto. split; [apply H; now left|]. apply IH. intros; apply H. now right. Qed.
  Lemma teval_agree : forall (t : tr N) w w', good t -> (forall x, In x (symbols t) -> w x = w' x) -> teval t w = teval t w'.
  Proof.
    assert (L : forall (l : list (tr N)) w w', Forall (fun t => forall w w', good t -> (forall x, In x (symbols t) -> w x = w' x) -> teval t w = teval t w') l ->
      All (fun e => good e /\ is_event e = true) l -> (forall x, In x (sunions (map symbols l)) -> w x = w' x) ->
      map (fun e => teval e w) l = map (fun e => teval e w') l).
    { intros l w w' F G H. apply map_ext_in. intros e He. rewrite Forall_forall in F. apply F; auto.
      - apply (All_In _ _ _ _ G He).
      - intros x Hx. apply H. apply in_sunions. exists (symbols e). split; auto. now apply in_map. }
    induction t using tr_ind'; intros w w' G Hs; simpl in G;
      try (simpl; rewrite (IHt w w'); [reflexivity| |]; [tauto|exact Hs]).
    - simpl. rewrite Hs; simpl; auto.
    - cbn [teval]. f_equal. apply map_ext_in. intros p Hp. destruct G as (_ & G). pose proof (All_In _ _ _ _ G Hp) as (G1 & _ & G2 & _ & Inc).
      rewrite Forall_forall in H. destruct (H p Hp) as (H1 & H2).
      rewrite (H1 w w' G1), (H2 w w' G2); auto.
      intros x Hx. apply Hs. simpl. apply in_sunions. exists (symbols (fst p)). split; auto. apply in_map_iff. eauto.
    - simpl. rewrite (IHt w w'); [reflexivity| |exact Hs]. destruct k; tauto.
    - cbn [teval]. f_equal. apply L; tauto.
    - cbn [teval]. f_equal. apply L; tauto.
  Qed.
End Terms.

(** ** Kernels *)
Definition kernel (K : (asg -> R) -> asg -> R) : Prop := forall w, law (fun f => K f w).
Lemma kernel_bnd : forall K f, kernel K -> bnd f -> bnd (K f).
Proof. intros K f H (M & Hf). exists M. intro w. apply (law_bound (H w) f M Hf). Qed.
Lemma kernel_comp : forall K J, kernel K -> kernel J -> kernel (fun f => K (J f)).
Proof.
  intros K J HK HJ w. split.
  - intros f g Hf Hg. replace (J (fun a => f a + g a)) with (fun a => J f a + J g a) by (extensionality a; symmetry; now apply (law_plus (HJ a))).
    apply (law_plus (HK w)); now apply kernel_bnd.
  - intros c f Hf. replace (J (fun a => c * f a)) with (fun a => c * J f a) by (extensionality a; symmetry; now apply (law_scale (HJ a))).
    apply (law_scale (HK w)). now apply kernel_bnd.
  - intros f Hf H. apply (law_pos (HK w)); [now apply kernel_bnd|]. intro a. now apply (law_pos (HJ a)).
  - replace (J (fun _ => 1)) with (fun _ : asg => 1) by (extensionality a; symmetry; apply (law_one (HJ a))). apply (law_one (HK w)).
Qed.
Lemma kernel_id : kernel (fun f => f).
Proof. intro w. split; auto. Qed.
Lemma law_image : forall A B (I : (A -> R) -> R) (h : A -> B), law I -> law (fun f => I (fun a => f (h a))).
Proof.
  intros A B I h L. split.
  - intros f g Hf Hg. apply (law_plus L (fun a => f (h a)) (fun a => g (h a))); auto with bnd.
  - intros c f Hf. apply (law_scale L c (fun a => f (h a))); auto with bnd.
  - intros f Hf H. apply (law_pos L); auto with bnd.
  - apply (law_one L).
Qed.
Lemma law_mix : forall A B (l : list B) (p : B -> R) (I : B -> (A -> R) -> R), (forall b, In b l -> law (I b)) ->
  (forall b, In b l -> 0 <= p b) -> sumR (map p l) = 1 -> law (fun f => sumR (map (fun b => p b * I b f) l)).
Proof.
  intros A B l p I L P S. split.
  - intros f g Hf Hg. clear S. induction l as [|b l IH]; simpl; [lra|].
    rewrite (law_plus (L b (or_introl eq_refl))), IH by (auto; intros; (apply L || apply P); now right). ring.
  - intros c f Hf. clear S. induction l as [|b l IH]; simpl; [lra|].
    rewrite (law_scale (L b (or_introl eq_refl))), IH by (auto; intros; (apply L || apply P); now right). ring.
  - intros f Hf H. apply sumR_nonneg, Forall_map, Forall_forall. intros b Hb. apply Rmult_le_pos; auto. now apply (law_pos (L b Hb)).
  - transitivity (sumR (map p l)); [|auto]. apply sumR_ext. intros b Hb. rewrite (law_one (L b Hb)). ring.
Qed.
(** restriction to a set of positive probability *)
Lemma law_restrict : forall A (I : (A -> R) -> R) P, law I -> 0 < I (ind P) -> law (fun f => I (fun a => f a * ind P a) / I (ind P)).
Proof.
  intros A I P L H. split.
  - intros f g Hf Hg. rewrite (law_ext (I:=I) _ (fun a => f a * ind P a + g a * ind P a)) by (intro; ring).
    rewrite (law_plus L (fun a => f a * ind P a)) by auto with bnd. field. lra.
  - intros c f Hf. rewrite (law_ext (I:=I) _ (fun a => c * (f a * ind P a))) by (intro; ring). rewrite (law_scale L c (fun a => f a * ind P a)) by auto with bnd. field. lra.
  - intros f Hf K. apply Rmult_le_pos; [|left; now apply Rinv_0_lt_compat]. apply (law_pos L); auto with bnd. intro a.
    apply Rmult_le_pos; auto. apply ind_01.
  - rewrite (law_ext (I:=I) _ (ind P)) by (intro; ring). field. lra.
Qed.

Section Den.
  Context {N : numsys} {S : logsys} {D : distsys N S} (dlaw : dist D -> (fval -> R) -> R).
  Notation spe := (spe D).
  Notation den := (den dlaw).
  Notation den_prod := (den_prod den).
  Notation wf_spe := (wf_spe dlaw).
  Notation wf_leaf := (wf_leaf dlaw).

  Lemma real_law_law : forall d supp cond, law (dlaw d) ->
    (if cond : bool then 0 < dlaw d (ind (in_iv supp)) else dlaw d (ind (in_iv supp)) = 1) -> law (real_law dlaw d supp cond).
  Proof.
    intros d supp cond L H. unfold real_law. destruct cond; [|exact L]. now apply (law_restrict _ (dlaw d)).
  Qed.
  Lemma Qsum_R : forall l, Q2R (Qsum l) = sumR (map Q2R l).
  Proof. induction l; simpl; [apply Q2R_0|]. now rewrite Q2R_plus, IHl. Qed.
  Lemma nom_law_law : forall ws, Forall (fun p => 0 <= snd p)%Q ws -> (Qsum (map snd ws) == 1)%Q -> law (nom_law ws).
  Proof.
    intros ws P T. unfold nom_law. rewrite Forall_forall in P.
    assert (E : forall f : fval -> R, sumR (map (fun p => f (FStr (fst p)) * Q2R (snd p)) ws) = sumR (map (fun p => Q2R (snd p) * f (FStr (fst p))) ws))
      by (intro f; apply sumR_ext; intros; ring).
    replace (fun f : fval -> R => _) with (fun f : fval -> R => sumR (map (fun p : string * Q => Q2R (snd p) * f (FStr (fst p))) ws)) by (extensionality f; symmetry; apply E).
    apply (law_mix _ _ ws (fun p => Q2R (snd p)) (fun p f => f (FStr (fst p)))).
    - intros b _. split; auto.
    - intros b Hb. rewrite <- Q2R_0. apply Qle_Rle. auto.
    - apply Qeq_eqR in T. rewrite Qsum_R in T. rewrite map_map in T. rewrite T. unfold Q2R; simpl; lra.
  Qed.

  Definition leaf_den_law (s : spe) : (fval -> R) -> R :=
    match s with
    | RealLeaf _ _ d supp cond _ => real_law dlaw d supp cond
    | AtomicLeaf _ a _ => fun f => f (FNum (toR a))
    | NominalLeaf _ ws => nom_law ws
    | _ => fun _ => 0
    end.
  Definition leaf_place (s : spe) (w : asg) (v : fval) : asg :=
    match s with
    | RealLeaf _ x _ _ _ env | AtomicLeaf x _ env => place x env w v
    | NominalLeaf x _ => upd w x v
    | _ => w
    end.
  Lemma leaf_law_law : forall s, wf_leaf s -> law (leaf_den_law s).
  Proof.
    intros s W. destruct s; simpl in W; try contradiction.
    - destruct W as (_ & _ & Dk & H & _). apply real_law_law; [exact (d_law _ _ _ Dk)|exact H].
    - split; cbn [leaf_den_law]; intros; auto.
    - destruct W as (_ & P & T). now apply nom_law_law.
  Qed.
  Lemma den_leaf : forall s f w, is_leaf s = true -> den s f w = leaf_den_law s (fun v => f (leaf_place s w v)).
  Proof. destruct s; intros; try discriminate; reflexivity. Qed.
  Lemma wf_leaf_leaf : forall s, wf_leaf s -> is_leaf s = true.
  Proof. destruct s; simpl; tauto. Qed.
  Lemma wf_leaf_spe : forall s, is_leaf s = true -> (wf_spe s <-> wf_leaf s).
  Proof. destruct s; intros; try discriminate; reflexivity. Qed.

  Lemma sum_wf : forall l, wf_spe (SumSPE l) -> forall c, In c l -> wf_spe (fst c).
  Proof. intros l (H & _) c Hc. apply (All_In _ _ _ _ H Hc). Qed.
  Lemma prod_wf : forall l, wf_spe (ProductSPE l) -> forall c, In c l -> wf_spe c.
  Proof. intros l (_ & H & _) c Hc. apply (All_In _ _ _ _ H Hc). Qed.

  Lemma den_prod_kernel : forall l, (forall c, In c l -> kernel (den c)) -> kernel (den_prod l).
  Proof.
    induction l as [|c l IH]; intros H; simpl; [apply kernel_id|]. apply (kernel_comp (den c) (den_prod l)).
    - apply H. now left.
    - apply IH. intros. apply H. now right.
  Qed.
  Theorem den_kernel : forall s, wf_spe s -> kernel (den s).
  Proof.
    assert (Lf : forall s, is_leaf s = true -> wf_spe s -> kernel (den s)).
    { intros s Il W w. replace (fun f => den s f w) with (fun f => leaf_den_law s (fun v => f (leaf_place s w v))) by (extensionality f; symmetry; now apply den_leaf).
      apply law_image. apply leaf_law_law. now apply wf_leaf_spe. }
    induction s using spe_ind'; intros W; try (apply Lf; auto; fail).
    - intro w. cbn [SpeSpec.den]. apply (law_mix _ _ l (fun c => toP (snd c)) (fun c f => den (fst c) f w)).
      + intros c Hc. apply H; auto. now apply (sum_wf l).
      + intros. apply toP_nonneg.
      + apply W.
    - change (kernel (den_prod l)). apply den_prod_kernel. intros c Hc. apply H; auto. now apply (prod_wf l).
  Qed.
  Lemma prod_kernel : forall l, All wf_spe l -> kernel (den_prod l).
  Proof. intros l W. apply den_prod_kernel. intros c Hc. apply den_kernel. now apply (All_In _ _ l). Qed.

  (** ** Locality *)
  Definition same_out (V : string -> Prop) (w w' : asg) : Prop := forall x, ~ V x -> w x = w' x.
  (** f does not use the variables in V; f uses only those in V *)
  Definition ignores {A} (V : string -> Prop) (f : asg -> A) : Prop := forall w w', same_out V w w' -> f w = f w'.
  Definition uses {A} (V : string -> Prop) (f : asg -> A) : Prop := ignores (fun x => ~ V x) f.

  Lemma derive_out : forall (env : tenv (N:=N)) w x, ~ In x (map fst env) -> derive env w x = w x.
  Proof.
    induction env as [|(y, t) env IH]; intros w x H; simpl; auto. simpl in H. rewrite IH by tauto. unfold upd.
    destruct (String.eqb_spec y x); [subst; tauto|auto].
  Qed.
  Lemma derive_app : forall (e1 e2 : tenv (N:=N)) w, derive (e1 ++ e2) w = derive e2 (derive e1 w).
  Proof. induction e1 as [|(y, t) e1 IH]; intros; simpl; auto. Qed.
  Lemma derive_agree : forall X env, env_built (N:=N) X env -> env_good env -> forall a a' : asg, a X = a' X ->
    forall z, In z (map fst env) \/ a z = a' z -> derive env a z = derive env a' z.
  Proof.
    intros X env B. induction B as [|env y t B IH Fr Sy]; intros G a a' E z Hz.
    - simpl in *. unfold upd. destruct (String.eqb_spec X z) as [<-|Ne]; [now rewrite E|]. destruct Hz as [[Hz|[]]|Hz]; [tauto|auto].
    - assert (G1 : env_good env).
      { intros x u L. apply (G x u). rewrite lookup_app, L. reflexivity. }
      assert (Gt : good t).
      { apply (G y t). rewrite lookup_app. destruct (lookup y env) eqn:L; [exfalso; apply Fr, lookup_in; eauto|]. simpl. now rewrite String.eqb_refl. }
      rewrite !derive_app. simpl. unfold upd. destruct (String.eqb_spec y z) as [<-|Ne].
      + f_equal. apply teval_agree; auto. 
      + apply IH; auto. rewrite map_app in Hz. destruct Hz as [Hz|Hz]; auto. apply in_app_iff in Hz. destruct Hz as [Hz|[Hz|[]]]; auto. contradiction.
  Qed.
  Lemma place_out : forall X env w v x, env_built (N:=N) X env -> ~ In x (map fst env) -> place X env w v x = w x.
  Proof.
    intros X env w v x B H. unfold place. rewrite derive_out by auto. unfold upd. destruct (String.eqb_spec X x) as [<-|]; auto.
    exfalso. apply H. now apply (built_facts X env B).
  Qed.
  Lemma place_agree : forall X env w w' v z, env_built (N:=N) X env -> env_good env ->
    In z (map fst env) \/ w z = w' z -> place X env w v z = place X env w' v z.
  Proof.
    intros X env w w' v z B G H. apply (derive_agree X env B G); unfold upd.
    - now rewrite String.eqb_refl.
    - destruct H; auto. right. destruct (String.eqb X z); auto.
  Qed.
  Lemma leaf_place_out : forall s w v x, wf_leaf s -> ~ vars s x -> leaf_place s w v x = w x.
  Proof.
    destruct s; simpl; intros w v' y W H; try contradiction.
    - apply place_out; auto. apply W.
    - apply place_out; auto. apply W.
    - unfold upd. destruct (String.eqb_spec x y); tauto.
  Qed.
  Lemma leaf_place_agree : forall s w w' v x, wf_leaf s -> vars s x \/ w x = w' x -> leaf_place s w v x = leaf_place s w' v x.
  Proof.
    destruct s; simpl; intros w w' v' y W H; try contradiction.
    - apply place_agree; auto; apply W.
    - apply place_agree; auto; apply W.
    - unfold upd. destruct (String.eqb_spec x y); tauto.
  Qed.
  Lemma sum_vars : forall l c, wf_spe (SumSPE l) -> In c l -> forall x, vars (SumSPE l) x <-> vars (fst c) x.
  Proof.
    intros l c (_ & _ & H) Hc x. destruct l as [|d l]; [destruct Hc|]. simpl. split; intro K.
    - apply (H d c); simpl; auto.
    - apply (H c d); simpl; auto.
  Qed.
  Definition pvars (l : list spe) : string -> Prop := vars (ProductSPE l).
  Lemma pvars_cons : forall c l x, pvars (c :: l) x <-> vars c x \/ pvars l x.
  Proof. reflexivity. Qed.
  Lemma pvars_in : forall l x, pvars l x <-> exists c, In c l /\ vars c x.
  Proof.
    induction l as [|c l IH]; intros x.
    - split; [intros []|intros (c & [] & _)].
    - rewrite pvars_cons, IH. split.
      + intros [H|(d & H1 & H2)]; [exists c; simpl; auto|exists d; simpl; auto].
      + intros (d & [<-|H1] & H2); [auto|]. right. eauto.
  Qed.

  (** the expected value does not depend on the variables that are drawn *)
  Lemma prod_local : forall l, (forall c, In c l -> forall V (f : asg -> R), ignores V f -> ignores (fun x => vars c x \/ V x) (den c f)) ->
    forall V f, ignores V f -> ignores (fun x => pvars l x \/ V x) (den_prod l f).
  Proof.
    induction l as [|c l IH]; intros H V f Hf; simpl.
    - intros w w' E. apply Hf. intros x Hx. apply E. intros [[]|K]; auto.
    - assert (G : ignores (fun x => pvars l x \/ V x) (den_prod l f)) by (apply IH; auto; intros; apply H; simpl; auto).
      intros w w' E. apply (H c (or_introl eq_refl) _ _ G). intros x Hx. apply E. rewrite pvars_cons. tauto.
  Qed.
  Theorem den_local : forall s, wf_spe s -> forall V f, ignores V f -> ignores (fun x => vars s x \/ V x) (den s f).
  Proof.
    assert (Lf : forall s, is_leaf s = true -> wf_spe s -> forall V f, ignores V f -> ignores (fun x => vars s x \/ V x) (den s f)).
    { intros s Il W V f Hf w w' E. apply wf_leaf_spe in W; auto. rewrite !den_leaf by auto. f_equal. extensionality v. apply Hf. intros x Hx.
      apply leaf_place_agree; auto. destruct (dec (vars s x)) as [K|K]; [auto|]. right. apply E. tauto. }
    induction s using spe_ind'; intros W; try (apply Lf; auto; fail).
    - intros V f Hf w w' E. cbn [SpeSpec.den]. apply sumR_ext. intros c Hc. f_equal. apply (H c Hc (sum_wf l W c Hc) V f Hf).
      intros x Hx. apply E. rewrite (sum_vars l c W Hc x). exact Hx.
    - intros V f Hf. change (den (ProductSPE l) f) with (den_prod l f). apply prod_local; auto. intros c Hc. apply H; auto. now apply (prod_wf l).
  Qed.
  Lemma prod_local_wf : forall l, All wf_spe l -> forall V f, ignores V f -> ignores (fun x => pvars l x \/ V x) (den_prod l f).
  Proof. intros l W. apply prod_local. intros c Hc. apply den_local. now apply (All_In _ _ l). Qed.

  (** only the drawn variables change *)
  Lemma prod_reach : forall l, (forall c, In c l -> forall f g w, (forall a, same_out (vars c) w a -> f a = g a) -> den c f w = den c g w) ->
    forall f g w, (forall a, same_out (pvars l) w a -> f a = g a) -> den_prod l f w = den_prod l g w.
  Proof.
    induction l as [|c l IH]; intros H f g w E; simpl.
    - apply E. intros x _. reflexivity.
    - apply (H c (or_introl eq_refl)). intros a Ha. apply IH; [intros; apply H; simpl; auto|]. intros b Hb. apply E.
      intros x Hx. rewrite pvars_cons in Hx. rewrite Ha by tauto. apply Hb. tauto.
  Qed.
  Theorem den_reach : forall s, wf_spe s -> forall f g w, (forall a, same_out (vars s) w a -> f a = g a) -> den s f w = den s g w.
  Proof.
    assert (Lf : forall s, is_leaf s = true -> wf_spe s -> forall f g w, (forall a, same_out (vars s) w a -> f a = g a) -> den s f w = den s g w).
    { intros s Il W f g w E. apply wf_leaf_spe in W; auto. rewrite !den_leaf by auto. f_equal. extensionality v. apply E. intros x Hx.
      symmetry. now apply leaf_place_out. }
    induction s using spe_ind'; intros W; try (apply Lf; auto; fail).
    - intros f g w E. cbn [SpeSpec.den]. apply sumR_ext. intros c Hc. f_equal. apply H; auto; [now apply (sum_wf l)|].
      intros a Ha. apply E. intros x Hx. apply Ha. rewrite <- (sum_vars l c W Hc x). exact Hx.
    - intros f g w E. apply (prod_reach l); auto. intros c Hc. apply H; auto. now apply (prod_wf l).
  Qed.
  Lemma prod_reach_wf : forall l, All wf_spe l -> forall f g w, (forall a, same_out (pvars l) w a -> f a = g a) -> den_prod l f w = den_prod l g w.
  Proof. intros l W. apply prod_reach. intros c Hc. apply den_reach. now apply (All_In _ _ l). Qed.

  (** factors that do not use the drawn variables come out *)
  Lemma den_factor : forall s f g w, wf_spe s -> bnd f -> ignores (vars s) g -> den s (fun a => f a * g a) w = den s f w * g w.
  Proof.
    intros s f g w W Hf Hg. rewrite (den_reach s W _ (fun a => f a * g w)).
    - apply (law_scale_r (den_kernel s W w)). auto.
    - intros a Ha. f_equal. symmetry. now apply Hg.
  Qed.
  Lemma prod_factor : forall l f g w, All wf_spe l -> bnd f -> ignores (pvars l) g -> den_prod l (fun a => f a * g a) w = den_prod l f w * g w.
  Proof.
    intros l f g w W Hf Hg. rewrite (prod_reach_wf l W _ (fun a => f a * g w)).
    - apply (law_scale_r (prod_kernel l W w)). auto.
    - intros a Ha. f_equal. symmetry. now apply Hg.
  Qed.
  (** independence: f uses none of the variables of the other children, g none of those of c *)
  Lemma prod_split : forall c l f g w, wf_spe c -> All wf_spe l -> bnd f -> bnd g ->
    ignores (pvars l) f -> ignores (vars c) g -> den_prod (c :: l) (fun a => f a * g a) w = den c f w * den_prod l g w.
  Proof.
    intros c l f g w Wc Wl Bf Bg Hf Hg. cbn [SpeSpec.den_prod].
    replace (den_prod l (fun a => f a * g a)) with (fun a => f a * den_prod l g a).
    - apply den_factor; auto. intros a a' E. apply (prod_local_wf l Wl (vars c) g Hg). intros x Hx. apply E. tauto.
    - extensionality a. symmetry. rewrite (prod_reach_wf l Wl _ (fun a => g a * f a)) by (intros; ring).
      rewrite prod_factor by auto. ring.
  Qed.
  (** almost sure events *)
  Lemma den_as : forall s (Z : asg -> Prop) f g w, wf_spe s -> den s (ind Z) w = 0 -> bnd f -> bnd g -> (forall a, ~ Z a -> f a = g a) -> den s f w = den s g w.
  Proof. intros s Z f g w W HZ Hf Hg E. apply (law_as (den_kernel s W w) Z); auto. Qed.
  (** functions of the drawn variables only have an expected value that depends on nothing *)
  Lemma den_closed : forall s f w w', wf_spe s -> uses (vars s) f -> den s f w = den s f w'.
  Proof. intros s f w w' W U. apply (den_local s W _ f U). intros x Hx. destruct (dec (vars s x)); tauto. Qed.
End Den.
