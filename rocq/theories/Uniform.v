(** A continuous distribution exists: the uniform distribution on [0,1] as a positive, linear,
    normalised functional on all bounded functions.  It is the limit, along an ultrafilter, of
    the averages over equally spaced points.  This shows that the assumptions about continuous
    distributions in SpeSpec.v can be met; no proof about the code depends on it. *)
From Coq Require Import List Bool String Reals Lra Lia ZArith QArith Qreals Classical ClassicalEpsilon FunctionalExtensionality PropExtensionality.
From Verif Require Import Base Num Sets SetSpec Poly Trans TransSpec Logs Spe SpeSpec SpeFacts.
Import ListNotations.
Local Open Scope R_scope.

(** ** Maximal sets *)
Section Maximal.
  Context {T : Type}.
  Notation set := (T -> Prop).
  Definition sub (A B : set) : Prop := forall x, A x -> B x.
  Context (P : set -> Prop) (A0 : set) (P0 : P A0).
  Context (Ch : forall C : set -> Prop, (exists A, C A) -> (forall A, C A -> P A /\ sub A0 A) -> (forall A B, C A -> C B -> sub A B \/ sub B A) ->
    P (fun x => exists A, C A /\ A x)).
  Definition bigger (A B : set) : Prop := P B /\ sub A B /\ ~ sub B A.
  Definition grow (A : set) : set := if dec (exists B, bigger A B) then epsilon (inhabits A) (bigger A) else A.
  Lemma grow_sub : forall A, sub A (grow A).
  Proof. intros A. unfold grow. destruct (dec _) as [E|E]; [|intros x; auto]. apply (epsilon_spec (inhabits A) (bigger A) E). Qed.
  Lemma grow_P : forall A, P A -> P (grow A).
  Proof. intros A H. unfold grow. destruct (dec _) as [E|E]; auto. apply (epsilon_spec (inhabits A) (bigger A) E). Qed.
  Lemma grow_max : forall A, sub (grow A) A -> forall B, P B -> sub A B -> sub B A.
  Proof.
    intros A H B PB S. apply NNPP. intros K. assert (E : exists B, bigger A B) by (exists B; repeat split; auto). unfold grow in H. destruct (dec _) as [E'|E']; [|tauto].
    destruct (epsilon_spec (inhabits A) (bigger A) E) as (_ & _ & F). tauto.
  Qed.
  Definition sup (C : set -> Prop) : set := fun x => A0 x \/ exists A, C A /\ A x.
  Inductive Tow : set -> Prop :=
  | Tow_grow : forall A, Tow A -> Tow (grow A)
  | Tow_sup : forall C : set -> Prop, (forall A, C A -> Tow A) -> Tow (sup C).
  Lemma double : forall R : set -> set -> Prop,
    (forall A B, Tow A -> Tow B -> R A B -> R B A -> R (grow A) B) -> (forall (C : set -> Prop) B, (forall A, C A -> Tow A) -> Tow B -> (forall A, C A -> R A B) -> R (sup C) B) ->
    forall A, Tow A -> forall B, Tow B -> R A B.
  Proof.
    intros R Hg Hs A TA. induction TA as [A TA IH|C HC IH]; intros B TB.
    - apply Hg; auto. induction TB as [B TB IHB|C HC IHC]; auto.
    - apply Hs; auto.
  Qed.
  Lemma Tow_base : forall A, Tow A -> sub A0 A.
  Proof. induction 1 as [A TA IH|C HC IH]; intros x Hx; [apply grow_sub; auto|now left]. Qed.
  Lemma Tow_linear : forall A, Tow A -> forall B, Tow B -> sub A B \/ sub (grow B) A.
  Proof.
    apply double.
    - intros A B TA TB [H|H] K; [|right; intros x Hx; apply grow_sub; auto]. destruct K as [K|K]; auto. right. assert (E : A = B) by (extensionality x; apply propositional_extensionality; split; auto). rewrite E. intros x; auto.
    - intros C B TC TB H. destruct (classic (exists A, C A /\ sub (grow B) A)) as [(A & CA & S)|K].
      + right. intros x Hx. right. eauto.
      + left. intros x [Hx|(A & CA & Hx)]; [now apply (Tow_base B TB)|]. destruct (H A CA) as [S|S]; auto. destruct K. eauto.
  Qed.
  Lemma Tow_P : forall A, Tow A -> P A.
  Proof.
    induction 1 as [A TA IH|C HC IH]; [now apply grow_P|]. destruct (classic (exists A, C A)) as [Ne|Em].
    - assert (E : sup C = fun x => exists A, C A /\ A x).
      { extensionality x. apply propositional_extensionality. split; [|now right]. intros [Hx|Hx]; auto. destruct Ne as (A & CA). exists A. split; auto. now apply (Tow_base A (HC A CA)). }
      rewrite E. apply Ch; auto.
      + intros A CA. split; auto. now apply Tow_base, HC.
      + intros A B CA CB. destruct (Tow_linear A (HC A CA) B (HC B CB)) as [S|S]; auto. right. intros x Hx. apply S. now apply grow_sub.
    - assert (E : sup C = A0) by (extensionality x; apply propositional_extensionality; split; [intros [Hx|(A & CA & _)]; auto; destruct Em; eauto|now left]). now rewrite E.
  Qed.
  Theorem maximal : exists M, P M /\ sub A0 M /\ forall B, P B -> sub M B -> sub B M.
  Proof.
    exists (sup Tow). assert (TM : Tow (sup Tow)) by (apply Tow_sup; auto). split; [now apply Tow_P|]. split; [now apply Tow_base|]. apply grow_max. intros x Hx. right. exists (grow (sup Tow)). split; auto. now apply Tow_grow.
  Qed.
End Maximal.

(** ** An ultrafilter on the natural numbers *)
Definition nset := nat -> Prop.
Definition filter_ok (F : nset -> Prop) : Prop :=
  (forall A B, F A -> F B -> F (fun n => A n /\ B n)) /\ (forall A B : nset, F A -> (forall n, A n -> B n) -> F B) /\ ~ F (fun _ => False).
Definition cofinite (A : nset) : Prop := exists N, forall n, (N <= n)%nat -> A n.
Lemma cofinite_ok : filter_ok cofinite.
Proof.
  split; [|split].
  - intros A B (N & HN) (M & HM). exists (N + M)%nat. intros n Hn. split; [apply HN|apply HM]; lia.
  - intros A B (N & HN) S. exists N. auto.
  - intros (N & HN). exact (HN N (le_n N)).
Qed.
Lemma ultra_exists : exists F, filter_ok F /\ (forall A, cofinite A -> F A) /\ forall A, F A \/ F (fun n => ~ A n).
Proof.
  destruct (maximal filter_ok cofinite cofinite_ok) as (F & Fo & Fc & Mx).
  - intros C (A1 & C1) HC Ln. split; [|split].
    + intros A B (F & CF & FA) (G & CG & GB). destruct (Ln F G CF CG) as [S|S].
      * exists G. split; auto. apply (proj1 (HC G CG)); auto.
      * exists F. split; auto. apply (proj1 (HC F CF)); auto.
    + intros A B (F & CF & FA) S. exists F. split; auto. destruct (HC F CF) as ((_ & U & _) & _). eapply U; eauto.
    + intros (F & CF & FF). destruct (HC F CF) as ((_ & _ & K) & _). auto.
  - exists F. split; auto. split; auto. intros A. destruct Fo as (Fi & Fu & Fp).
    destruct (classic (exists Y, F Y /\ forall n, Y n -> ~ A n)) as [(Y & FY & K)|K]; [right; eapply Fu; eauto|left].
    apply (Mx (fun X => exists Y, F Y /\ forall n, Y n -> A n -> X n)).
    + split; [|split].
      * intros X Z (Y & FY & HY) (W & FW & HW). exists (fun n => Y n /\ W n). split; auto. intros n (H1 & H2) HA. split; auto.
      * intros X Z (Y & FY & HY) S. exists Y. split; auto.
      * intros (Y & FY & HY). apply K. exists Y. split; [auto|]. intros n Yn An. exact (HY n Yn An).
    + intros X FX. exists X. auto.
    + exists (fun _ => True). split; auto. apply Fc. exists 0%nat. auto.
Qed.
Definition ultra : nset -> Prop := epsilon (inhabits cofinite) (fun F => filter_ok F /\ (forall A, cofinite A -> F A) /\ forall A, F A \/ F (fun n => ~ A n)).
Lemma ultra_ok : filter_ok ultra /\ (forall A, cofinite A -> ultra A) /\ forall A, ultra A \/ ultra (fun n => ~ A n).
Proof. exact (epsilon_spec (inhabits cofinite) (fun F => filter_ok F /\ (forall A, cofinite A -> F A) /\ forall A, F A \/ F (fun n => ~ A n)) ultra_exists). Qed.
Lemma ultra_and : forall A B, ultra A -> ultra B -> ultra (fun n => A n /\ B n).
Proof. apply ultra_ok. Qed.
Lemma ultra_up : forall A B : nset, ultra A -> (forall n, A n -> B n) -> ultra B.
Proof. apply ultra_ok. Qed.
Lemma ultra_in : forall A : nset, ultra A -> exists n, A n.
Proof. intros A H. apply NNPP. intros K. destruct ultra_ok as ((_ & U & Np) & _). apply Np. apply (U A); auto. intros n Hn. apply K. eauto. Qed.

(** ** Limits along it *)
Definition is_lim (u : nat -> R) (l : R) : Prop := forall eps, 0 < eps -> ultra (fun n => Rabs (u n - l) < eps).
Lemma is_lim_unique : forall u l m, is_lim u l -> is_lim u m -> l = m.
Proof.
  intros u l m Hl Hm. destruct (Req_dec l m) as [|Ne]; auto. exfalso. set (e := Rabs (l - m) / 2). assert (He : 0 < e) by (unfold e; apply Rdiv_lt_0_compat; [apply Rabs_pos_lt|]; lra).
  destruct (ultra_in _ (ultra_and _ _ (Hl e He) (Hm e He))) as (n & H1 & H2). pose proof (Rabs_triang (l - u n) (u n - m)) as K. replace (l - u n + (u n - m)) with (l - m) in K by ring. rewrite (Rabs_minus_sym l (u n)) in K. unfold e in *. lra.
Qed.
Lemma is_lim_exists : forall u, bnd u -> exists l, is_lim u l.
Proof.
  intros u (M & B). assert (B' : forall n, - M <= u n <= M) by (intros n; specialize (B n); unfold Rabs in B; destruct (Rcase_abs (u n)); lra).
  destruct (completeness (fun x => ultra (fun n => x <= u n))) as (l & Ub & Lst).
  - exists M. intros x Hx. destruct (ultra_in _ Hx) as (n & Hn). specialize (B' n). lra.
  - exists (- M). apply ultra_ok. exists 0%nat. intros n _. apply B'.
  - exists l. intros e He.
    assert (H1 : ultra (fun n => l - e / 2 <= u n)).
    { apply NNPP. intros K. assert (l <= l - e / 2); [|lra]. apply Lst. intros x Hx. apply Rnot_lt_le. intros Hlt. apply K. eapply ultra_up; eauto. cbn. intros n Hn. lra. }
    assert (H2 : ultra (fun n => ~ (l + e / 2 <= u n))).
    { destruct (proj2 (proj2 ultra_ok) (fun n => l + e / 2 <= u n)) as [K|K]; auto. specialize (Ub _ K). lra. }
    apply (ultra_up _ _ (ultra_and _ _ H1 H2)). cbn. intros n (K1 & K2). apply Rabs_def1; lra.
Qed.
Definition Lim (u : nat -> R) : R := epsilon (inhabits 0) (is_lim u).
Lemma Lim_ok : forall u, bnd u -> is_lim u (Lim u).
Proof. intros u B. exact (epsilon_spec (inhabits 0) (is_lim u) (is_lim_exists u B)). Qed.
Lemma Lim_is : forall u l, is_lim u l -> Lim u = l.
Proof. intros u l H. apply (is_lim_unique u); auto. exact (epsilon_spec (inhabits 0) (is_lim u) (ex_intro _ l H)). Qed.
Lemma is_lim_plus : forall u v l m, is_lim u l -> is_lim v m -> is_lim (fun n => u n + v n) (l + m).
Proof.
  intros u v l m Hu Hv e He. assert (H2 : 0 < e / 2) by lra. apply (ultra_up _ _ (ultra_and _ _ (Hu _ H2) (Hv _ H2))). cbn. intros n (K1 & K2).
  replace (u n + v n - (l + m)) with ((u n - l) + (v n - m)) by ring. eapply Rle_lt_trans; [apply Rabs_triang|lra].
Qed.
Lemma is_lim_scale : forall u c l, is_lim u l -> is_lim (fun n => c * u n) (c * l).
Proof.
  intros u c l H e He. assert (Hc : 0 < Rabs c + 1) by (pose proof (Rabs_pos c); lra). assert (H2 : 0 < e / (Rabs c + 1)) by (now apply Rdiv_lt_0_compat). apply (ultra_up _ _ (H _ H2)). cbn. intros n K.
  replace (c * u n - c * l) with (c * (u n - l)) by ring. rewrite Rabs_mult. apply Rle_lt_trans with ((Rabs c) * (e / (Rabs c + 1))); [apply Rmult_le_compat_l; [apply Rabs_pos|lra]|].
  apply Rlt_le_trans with ((Rabs c + 1) * (e / (Rabs c + 1))); [apply Rmult_lt_compat_r; lra|]. right. field. lra.
Qed.
Lemma is_lim_pos : forall u l, (forall n, 0 <= u n) -> is_lim u l -> 0 <= l.
Proof.
  intros u l H K. apply Rnot_lt_le. intros Hl. destruct (ultra_in _ (K (- l) ltac:(lra))) as (n & Hn). apply Rabs_def2 in Hn. specialize (H n). lra.
Qed.
(** what is within c/(n+1) of l has the limit l *)
Lemma is_lim_near : forall u l c, 0 < c -> (forall n, Rabs (u n - l) <= c / INR (S n)) -> is_lim u l.
Proof.
  intros u l c Hc H e He. apply ultra_ok. destruct (archimed_cor1 (e / c)) as (N & HN & Np); [now apply Rdiv_lt_0_compat|]. exists N. intros n Hn. eapply Rle_lt_trans; [apply H|].
  assert (0 < INR N) by (now apply lt_0_INR). assert (INR N < INR (S n)) by (apply lt_INR; lia). apply Rlt_trans with (c / INR N).
  - apply Rmult_lt_compat_l; auto. apply Rinv_lt_contravar; auto. apply Rmult_lt_0_compat; lra.
  - apply (Rmult_lt_compat_l c) in HN; auto. replace (c * (e / c)) with e in HN by (field; lra). exact HN.
Qed.

(** ** The uniform distribution *)
Definition pt (n i : nat) : fval := FNum (INR i / INR (S n)).
Definition avg (f : fval -> R) (n : nat) : R := sumR (map (fun i => f (pt n i)) (seq 0 (S n))) / INR (S n).
Definition unif (f : fval -> R) : R := Lim (avg f).
Lemma INR_S_pos : forall n, 0 < INR (S n).
Proof. intros n. apply lt_0_INR. lia. Qed.
Lemma sumR_bound : forall (g : nat -> R) M l, (forall i, Rabs (g i) <= M) -> Rabs (sumR (map g l)) <= INR (List.length l) * M.
Proof.
  intros g M l H. induction l as [|i l IH]; [cbn; rewrite Rabs_R0; lra|]. change (sumR (map g (i :: l))) with (g i + sumR (map g l)). cbn [List.length]. rewrite S_INR. eapply Rle_trans; [apply Rabs_triang|]. specialize (H i). lra.
Qed.
Lemma avg_bnd : forall f, bnd f -> bnd (avg f).
Proof.
  intros f (M & B). exists M. intros n. unfold avg. pose proof (INR_S_pos n) as P. unfold Rdiv. rewrite Rabs_mult, (Rabs_right (/ INR (S n))) by (left; now apply Rinv_0_lt_compat).
  apply (Rmult_le_reg_r (INR (S n))); auto. rewrite Rmult_assoc, Rinv_l, Rmult_1_r, Rmult_comm by lra. pose proof (sumR_bound (fun i => f (pt n i)) M (seq 0 (S n)) (fun i => B _)) as K. now rewrite seq_length in K.
Qed.
Lemma sumR_plus : forall (g h : nat -> R) l, sumR (map (fun i => g i + h i) l) = sumR (map g l) + sumR (map h l).
Proof. intros g h l. induction l as [|i l IH]; unfold sumR in *; cbn [map fold_right]; [lra|rewrite IH; lra]. Qed.
Lemma sumR_mult : forall c (g : nat -> R) l, sumR (map (fun i => c * g i) l) = c * sumR (map g l).
Proof. intros c g l. induction l as [|i l IH]; unfold sumR in *; cbn [map fold_right]; [lra|rewrite IH; lra]. Qed.
Lemma unif_law : law unif.
Proof.
  split.
  - intros f g Bf Bg. apply Lim_is. replace (avg (fun a => f a + g a)) with (fun n => avg f n + avg g n).
    + apply is_lim_plus; apply Lim_ok; now apply avg_bnd.
    + extensionality n. unfold avg. rewrite sumR_plus. field. pose proof (INR_S_pos n). lra.
  - intros c f Bf. apply Lim_is. replace (avg (fun a => c * f a)) with (fun n => c * avg f n).
    + apply is_lim_scale, Lim_ok; now apply avg_bnd.
    + extensionality n. unfold avg. rewrite sumR_mult. field. pose proof (INR_S_pos n). lra.
  - intros f Bf H. apply (is_lim_pos (avg f)); [|apply Lim_ok; now apply avg_bnd]. intros n. unfold avg. apply Rmult_le_pos; [|left; apply Rinv_0_lt_compat, INR_S_pos].
    apply sumR_nonneg. apply Forall_map, Forall_forall. auto.
  - apply Lim_is. apply (is_lim_near _ _ 1); [lra|]. intros n. pose proof (INR_S_pos n) as P. replace (avg (fun _ => 1) n) with 1; [replace (1 - 1) with 0 by ring; rewrite Rabs_R0; left; apply Rdiv_lt_0_compat; lra|].
    unfold avg. replace (sumR (map (fun _ => 1) (seq 0 (S n)))) with (INR (S n)); [field; lra|]. rewrite <- (seq_length (S n) 0) at 1. generalize (seq 0 (S n)). induction l as [|i l IH]; auto. cbn [List.length]. rewrite S_INR, IH. unfold sumR; cbn [map fold_right]. lra.
Qed.
(** counting the points below y *)
Definition below (y : R) (m : nat) : R := sumR (map (fun i => ind (fun i => INR i <= y) i) (seq 0 m)).
Lemma below_S : forall y m, below y (S m) = below y m + ind (fun i => INR i <= y) m.
Proof. intros y m. unfold below. rewrite seq_S, map_app. cbn [map plus]. unfold sumR. rewrite fold_right_app. cbn [fold_right]. rewrite Rplus_0_r. generalize (ind (fun i => INR i <= y) m). intros r. induction (map (fun i => ind (fun i0 : nat => INR i0 <= y) i) (seq 0 m)) as [|a l IH]; cbn [fold_right]; [lra|rewrite IH; lra]. Qed.
Lemma below_bounds : forall y m, 0 <= y -> (INR m <= y -> below y m = INR m) /\ (y <= INR m -> y <= below y m <= y + 1).
Proof.
  intros y m Hy. induction m as [|m (IH1 & IH2)].
  - unfold below, sumR. cbn. split; intros; lra.
  - rewrite below_S, S_INR. destruct (Rle_lt_dec (INR m) y) as [K|K].
    + rewrite ind_true by auto. rewrite IH1 by auto. split; intros; lra.
    + rewrite ind_false by lra. split; intros; [lra|]. specialize (IH2 (Rlt_le _ _ K)). lra.
Qed.
Lemma below_neg : forall y m, y < 0 -> below y m = 0.
Proof. intros y m Hy. induction m as [|m IH]; auto. rewrite below_S, IH, ind_false; [lra|]. pose proof (pos_INR m). lra. Qed.
Lemma ele_fin : forall a b, ele (Fin a) (Fin b) <-> a <= b.
Proof. intros a b. unfold ele, elt, Rle. split; intros [H|H]; auto; [injection H as <-|rewrite H]; auto. Qed.
Lemma avg_below : forall r n, avg (ind (at_most (Fin r))) n = below (r * INR (S n)) (S n) / INR (S n).
Proof.
  intros r n. unfold avg, below. do 2 f_equal. apply map_ext. intros i. pose proof (INR_S_pos n) as P. unfold ind. assert (E : at_most (Fin r) (pt n i) <-> INR i <= r * INR (S n)).
  { unfold at_most, pt. split.
    - intros (q & Eq & Hq). injection Eq as <-. apply ele_fin in Hq. apply (Rmult_le_compat_r (INR (S n))) in Hq; [|lra]. unfold Rdiv in Hq. rewrite Rmult_assoc, Rinv_l in Hq by lra. lra.
    - intros H. eexists. split; [reflexivity|]. apply ele_fin. apply (Rmult_le_reg_r (INR (S n))); auto. unfold Rdiv. rewrite Rmult_assoc, Rinv_l by lra. lra. }
  destruct (dec (at_most (Fin r) (pt n i))), (dec (INR i <= r * INR (S n))); tauto.
Qed.
Definition clamp (x : ext R) : R := match x with NInf => 0 | PInf => 1 | Fin r => Rmin 1 (Rmax 0 r) end.
Lemma unif_num : unif (ind is_num) = 1.
Proof. rewrite <- (law_one unif_law). unfold unif. f_equal. extensionality n. unfold avg. do 2 f_equal. apply map_ext. intros i. apply ind_true. eexists. reflexivity. Qed.
Lemma unif_cdf : forall x, unif (ind (at_most x)) = clamp x.
Proof.
  intros [|r|].
  - apply Lim_is. apply (is_lim_near _ _ 1); [lra|]. intros n. pose proof (INR_S_pos n) as P. replace (avg (ind (at_most NInf)) n) with 0; [cbn [clamp]; rewrite Rminus_0_r, Rabs_R0; left; apply Rdiv_lt_0_compat; lra|].
    unfold avg. rewrite (map_ext _ (fun _ => 0 * 1)); [|intros i; rewrite Rmult_0_l; apply ind_false; intros (q & _ & [[]|K]); discriminate]. rewrite sumR_mult. field. lra.
  - apply Lim_is. apply (is_lim_near _ _ 1); [lra|]. intros n. rewrite avg_below. pose proof (INR_S_pos n) as P. cbn [clamp].
    destruct (Rlt_le_dec r 0) as [H|H].
    + rewrite below_neg by (rewrite <- (Rmult_0_l (INR (S n))); now apply Rmult_lt_compat_r). rewrite Rmax_left, Rmin_right by lra. unfold Rdiv. rewrite Rmult_0_l, Rminus_0_r, Rabs_R0. left. apply Rdiv_lt_0_compat; lra.
    + rewrite Rmax_right by auto. assert (H0 : 0 <= r * INR (S n)) by (apply Rmult_le_pos; lra). destruct (below_bounds (r * INR (S n)) (S n) H0) as (B1 & B2). destruct (Rle_lt_dec 1 r) as [K|K].
      * rewrite Rmin_left by auto. rewrite B1; [|rewrite <- (Rmult_1_l (INR (S n))) at 1; apply Rmult_le_compat_r; lra]. unfold Rdiv. rewrite Rinv_r, Rminus_diag_eq, Rabs_R0 by lra. left. apply Rdiv_lt_0_compat; lra.
      * rewrite Rmin_right by lra. destruct B2 as (B2 & B3); [rewrite <- (Rmult_1_l (INR (S n))) at 2; apply Rmult_le_compat_r; lra|]. replace (below (r * INR (S n)) (S n) / INR (S n) - r) with ((below (r * INR (S n)) (S n) - r * INR (S n)) * / INR (S n)) by (field; lra).
        rewrite Rabs_right; [|apply Rle_ge, Rmult_le_pos; [lra|left; now apply Rinv_0_lt_compat]]. unfold Rdiv. apply Rmult_le_compat_r; [left; now apply Rinv_0_lt_compat|lra].
  - cbn [clamp]. rewrite <- unif_num. f_equal. extensionality v. apply ind_eq. unfold at_most, is_num. split; [intros (q & Eq & _)|intros (q & ->); exists q; split; [|left; exact Logic.I]]; eauto.
Qed.
Lemma unif_point : forall r, unif (ind (eq (FNum r))) = 0.
Proof.
  intros r. apply Lim_is. apply (is_lim_near _ _ 1); [lra|]. intros n. pose proof (INR_S_pos n) as P. rewrite Rminus_0_r. unfold avg.
  assert (E : forall k m, (forall i j, (k <= i)%nat -> FNum r = pt n i -> FNum r = pt n j -> i = j) -> 0 <= sumR (map (fun i => ind (eq (FNum r)) (pt n i)) (seq k m)) <= 1).
  { intros k m. revert k. induction m as [|m IH]; intros k Hk; [unfold sumR; cbn; lra|]. cbn [seq map]. unfold sumR. cbn [fold_right]. fold (sumR (map (fun i => ind (eq (FNum r)) (pt n i)) (seq (S k) m))).
    destruct (dec (FNum r = pt n k)) as [Ek|Ek].
    - rewrite ind_true by auto. rewrite (map_ext_in _ (fun _ => 0 * 1)); [rewrite sumR_mult; lra|]. intros i Hi. rewrite Rmult_0_l. apply ind_false. intros Ei. apply in_seq in Hi. pose proof (Hk k i (le_n k) Ek Ei). lia.
    - rewrite ind_false by auto. assert (0 <= sumR (map (fun i => ind (eq (FNum r)) (pt n i)) (seq (S k) m)) <= 1); [|lra]. apply IH. intros i j Hi. apply Hk. lia. }
  specialize (E 0%nat (S n)). assert (H : 0 <= sumR (map (fun i => ind (eq (FNum r)) (pt n i)) (seq 0 (S n))) <= 1).
  { apply E. intros i j _ Hi Hj. rewrite Hi in Hj. unfold pt in Hj. injection Hj as Hj. apply INR_eq. apply (Rmult_eq_reg_r (/ INR (S n))); auto. apply Rinv_neq_0_compat. lra. }
  unfold Rdiv. rewrite Rabs_right; [apply Rmult_le_compat_r; [left; now apply Rinv_0_lt_compat|lra]|]. apply Rle_ge, Rmult_le_pos; [lra|left; now apply Rinv_0_lt_compat].
Qed.
