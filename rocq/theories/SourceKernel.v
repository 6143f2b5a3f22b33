(** Kernels at one assignment: what a command does there depends on the kernel there only, and
    branches may be taken one after the other. *)
From Coq Require Import List Bool String Reals Lra Lia ZArith FunctionalExtensionality Classical.
From Verif Require Import Base Num Sets SetSpec Poly Trans TransSpec Dnf DnfSpec Logs Spe SpeSpec SpeFacts SpeOps Prog ProgSpec ProgProofs.
Import ListNotations.
Local Open Scope R_scope.

Section At.
  Context (w : asg).
  Notation kernel := ProgSpec.kernel.

  (** ** Positive linear functionals *)
  Record meas (K : kernel) : Prop := {
    me_plus : forall f g, bnd f -> bnd g -> K (fun a => f a + g a) w = K f w + K g w;
    me_scale : forall c f, bnd f -> K (fun a => c * f a) w = c * K f w;
    me_pos : forall f, bnd f -> (forall a, 0 <= f a) -> 0 <= K f w
  }.
  Definition same (K L : kernel) : Prop := forall f, K f w = L f w.
  Definition agree (K L : kernel) : Prop := forall f, bnd f -> K f w = L f w.
  Lemma me_ext : forall (K : kernel) f g, (forall a, f a = g a) -> K f w = K g w.
  Proof. intros K f g H. f_equal. extensionality a. auto. Qed.
  Lemma me_ind : forall (K : kernel) P Q, (forall a, P a <-> Q a) -> K (ind P) w = K (ind Q) w.
  Proof. intros K P Q H. apply me_ext. intros a. unfold ind. destruct (dec (P a)), (dec (Q a)); auto; exfalso; firstorder. Qed.
  Lemma start_meas : meas start.
  Proof. constructor; intros; unfold start; auto. Qed.

  Section Meas.
    Context (K : kernel) (M : meas K).
    Lemma me_minus : forall f g, bnd f -> bnd g -> K (fun a => f a - g a) w = K f w - K g w.
    Proof.
      intros f g Hf Hg. rewrite (me_ext K _ (fun a => f a + (-1) * g a)) by (intro; ring). rewrite (me_plus K M), (me_scale K M); auto with bnd. ring.
    Qed.
    Lemma me_mono : forall f g, bnd f -> bnd g -> (forall a, f a <= g a) -> K f w <= K g w.
    Proof.
      intros f g Hf Hg H. assert (P : 0 <= K (fun a => g a - f a) w) by (apply (me_pos K M); auto with bnd; intro a; specialize (H a); lra). rewrite me_minus in P by auto. lra.
    Qed.
    Lemma me_null : forall (Z : asg -> Prop) f, K (ind Z) w = 0 -> bnd f -> (forall a, ~ Z a -> f a = 0) -> K f w = 0.
    Proof.
      intros Z f H (B & Hf) H0.
      assert (Bd : forall a, - (B * ind Z a) <= f a <= B * ind Z a).
      { intro a. unfold ind. destruct (dec (Z a)) as [z|z].
        - specialize (Hf a). pose proof (Rle_abs (f a)). pose proof (Rle_abs (- f a)). rewrite Rabs_Ropp in *. lra.
        - rewrite (H0 a z). lra. }
      assert (Bf : bnd f) by (exists B; auto).
      assert (K f w <= K (fun a => B * ind Z a) w) by (apply me_mono; auto with bnd; intro a; apply Bd).
      assert (K (fun a => (- B) * ind Z a) w <= K f w) by (apply me_mono; auto with bnd; intro a; destruct (Bd a); lra).
      rewrite (me_scale K M) in * by auto with bnd. rewrite H in *. lra.
    Qed.
    Lemma me_as : forall (Z : asg -> Prop) f g, K (ind Z) w = 0 -> bnd f -> bnd g -> (forall a, ~ Z a -> f a = g a) -> K f w = K g w.
    Proof.
      intros Z f g H Hf Hg E. apply Rminus_diag_uniq. rewrite <- me_minus by auto. apply (me_null Z); auto with bnd. intros a Ha. rewrite (E a Ha). ring.
    Qed.
    Lemma me_sub : forall Z Y : asg -> Prop, K (ind Z) w = 0 -> (forall a, Y a -> Z a) -> K (ind Y) w = 0.
    Proof. intros Z Y H E. apply (me_null Z); auto with bnd. intros a Ha. apply ind_false. auto. Qed.
    Lemma me_restrict : forall P, meas (restrict K P).
    Proof.
      intros P. unfold restrict. constructor.
      - intros f g Hf Hg. rewrite (me_ext K _ (fun a => f a * ind P a + g a * ind P a)) by (intro; ring). rewrite (me_plus K M); auto with bnd. unfold Rdiv. ring.
      - intros c f Hf. rewrite (me_ext K _ (fun a => c * (f a * ind P a))) by (intro; ring). rewrite (me_scale K M); auto with bnd. unfold Rdiv. ring.
      - intros f Hf H. assert (N : 0 <= K (fun a => f a * ind P a) w) by (apply (me_pos K M); auto with bnd; intro a; apply Rmult_le_pos; auto; unfold ind; destruct (dec (P a)); lra).
        destruct (Req_EM_T (K (ind P) w) 0) as [Z|Z].
        + rewrite (me_null P (fun a => f a * ind P a) Z); auto with bnd; [unfold Rdiv; lra|]. intros a Ha. rewrite (ind_false _ P a Ha). ring.
        + assert (N2 : 0 <= K (ind P) w) by (apply (me_pos K M); auto with bnd; intro a; unfold ind; destruct (dec (P a)); lra). apply Rmult_le_pos; auto. left. apply Rinv_0_lt_compat. lra.
    Qed.
    Lemma me_zero : forall P f, K (ind P) w = 0 -> bnd f -> restrict K P f w = 0.
    Proof.
      intros P f H Hf. unfold restrict. rewrite (me_null P (fun a => f a * ind P a) H); auto with bnd; [unfold Rdiv; ring|]. intros a Ha. rewrite (ind_false _ P a Ha). ring.
    Qed.
  End Meas.
  Lemma agree_meas : forall K L, meas K -> agree K L -> meas L.
  Proof.
    intros K L M A. constructor.
    - intros f g Hf Hg. rewrite <- !A by auto with bnd. now apply (me_plus K M).
    - intros c f Hf. rewrite <- !A by auto with bnd. now apply (me_scale K M).
    - intros f Hf H. rewrite <- A by auto. now apply (me_pos K M).
  Qed.
  Lemma agree_sym : forall K L, agree K L -> agree L K.
  Proof. intros K L A f Hf. symmetry. auto. Qed.
  Lemma restrict_agree : forall K L P Q, meas K -> agree K L -> K (ind (fun a => ~ (P a <-> Q a))) w = 0 -> agree (restrict K P) (restrict L Q).
  Proof.
    intros K L P Q M A Z f Hf. unfold restrict.
    assert (E : forall f, bnd f -> K (fun a => f a * ind P a) w = L (fun a => f a * ind Q a) w).
    { intros h Hh. rewrite <- A by auto with bnd. apply (me_as K M _ _ _ Z); auto with bnd. intros a Ha. apply NNPP in Ha. f_equal. unfold ind. destruct (dec (P a)), (dec (Q a)); auto; exfalso; tauto. }
    rewrite (E f Hf). f_equal. specialize (E (fun _ => 1) ltac:(auto with bnd)). rewrite (me_ext K _ (ind P)) in E by (intro; ring). rewrite (me_ext L _ (ind Q)) in E by (intro; ring). now rewrite E.
  Qed.
  Lemma mass_agree : forall K L P Q, meas K -> agree K L -> K (ind (fun a => ~ (P a <-> Q a))) w = 0 -> K (ind P) w = L (ind Q) w.
  Proof.
    intros K L P Q M A Z. rewrite <- A by auto with bnd. apply (me_as K M _ _ _ Z); auto with bnd. intros a Ha. apply NNPP in Ha. unfold ind. destruct (dec (P a)), (dec (Q a)); auto; exfalso; tauto.
  Qed.
  Lemma ind_and : forall (P Q : asg -> Prop) a, ind Q a * ind P a = ind (fun a => P a /\ Q a) a.
  Proof. intros P Q a. unfold ind. destruct (dec (P a)), (dec (Q a)), (dec (P a /\ Q a)); try lra; exfalso; tauto. Qed.

  Lemma restrict_same : forall K L P, same K L -> same (restrict K P) (restrict L P).
  Proof. intros K L P A f. unfold restrict. now rewrite !A. Qed.
  Lemma restrict_twice : forall K P Q, K (ind P) w <> 0 -> K (ind (fun a => P a /\ Q a)) w <> 0 -> same (restrict (restrict K P) Q) (restrict K (fun a => P a /\ Q a)).
  Proof.
    intros K P Q N1 N2 f. unfold restrict.
    rewrite (me_ext K (fun a => ind Q a * ind P a) (ind (fun a => P a /\ Q a))) by (intro; apply ind_and).
    rewrite (me_ext K (fun a => f a * ind Q a * ind P a) (fun a => f a * ind (fun a => P a /\ Q a) a)) by (intro a; rewrite <- ind_and; ring). field. auto.
  Qed.

  (** ** One case after the other *)
  Definition local (m : kernel -> kernel) : Prop := forall K L, same K L -> same (m K) (m L).
  Fixpoint nest (l : list ((asg -> Prop) * (kernel -> kernel))) (K : kernel) (f : asg -> R) : R :=
    match l with
    | [] => 0
    | (P, m) :: l => K (ind P) w * m (restrict K P) f w + K (ind (fun a => ~ P a)) w * nest l (restrict K (fun a => ~ P a)) f
    end.
  Lemma total_local : forall l, Forall (fun p => local (snd p)) l -> local (fun K => total K l).
  Proof.
    intros l F K L A f. unfold total. f_equal. apply map_ext_in. intros (P, m) Hp. cbn [fst snd]. rewrite A. f_equal.
    apply (in_map snd) in Hp. rewrite firsts_snd in Hp. apply in_map_iff in Hp. destruct Hp as (q & Eq & Hq). cbn in Eq. subst m. rewrite Forall_forall in F. apply (F q Hq). now apply restrict_same.
  Qed.
  Lemma sumR_scale : forall A c (g : A -> R) l, c * sumR (map g l) = sumR (map (fun x => c * g x) l).
  Proof. induction l as [|x l IH]; cbn [map]; [cbn; ring|]. change (sumR (?a :: ?l)) with (a + sumR l). rewrite <- IH. ring. Qed.
  Lemma total_nest : forall l K f, Forall (fun p => local (snd p)) l -> meas K -> total K l f w = nest l K f.
  Proof.
    induction l as [|(P, m) l IH]; intros K f F M; [reflexivity|]. inversion F as [|? ? Fm Fl]; subst. cbn [nest]. rewrite <- IH by (auto using me_restrict).
    unfold total. cbn [firsts map fst snd]. change (sumR (?a :: ?l)) with (a + sumR l). f_equal. rewrite sumR_scale, map_map. cbn [fst snd]. f_equal. apply map_ext_in. intros (Q, n) Hq. cbn [fst snd].
    assert (Ln : local n) by (apply (in_map snd) in Hq; rewrite firsts_snd in Hq; apply in_map_iff in Hq; destruct Hq as (q & E & Hq); cbn in E; subst n; rewrite Forall_forall in Fl; now apply Fl).
    assert (E : K (ind (fun a => ~ P a)) w * restrict K (fun a => ~ P a) (ind Q) w = K (ind (fun a => ~ P a /\ Q a)) w).
    { destruct (Req_EM_T (K (ind (fun a => ~ P a)) w) 0) as [Z|Z].
      - rewrite Z, (me_sub K M _ (fun a => ~ P a /\ Q a) Z); [ring|tauto].
      - unfold restrict. rewrite (me_ext K (fun a => ind Q a * ind _ a) (ind (fun a => ~ P a /\ Q a))) by (intro; apply (ind_and (fun a => ~ P a))). field. auto. }
    rewrite <- Rmult_assoc, E. destruct (Req_EM_T (K (ind (fun a => ~ P a /\ Q a)) w) 0) as [Z|Z]; [rewrite Z; ring|]. f_equal. apply Ln. intros h. symmetry. apply restrict_twice; auto.
    intros Z'. apply Z. rewrite <- E, Z'. ring.
  Qed.
  Lemma firsts_twice : forall B (l : list ((asg -> Prop) * B)) (P : asg -> Prop) (x : B) Q y, In (Q, y) (firsts l) -> In ((fun a => ~ P a /\ Q a), y) (firsts ((P, x) :: l)).
  Proof. intros B l P x Q y H. cbn [firsts]. right. apply in_map_iff. exists (Q, y). auto. Qed.

  (** the same cases, with the same meaning where they have a chance *)
  Lemma total_pair : forall X (xs : list X) (P : X -> asg -> Prop) (m n : X -> kernel -> kernel) K L f, agree K L ->
    (forall Q x, In (Q, x) (firsts (map (fun x => (P x, x)) xs)) -> K (ind Q) w <> 0 -> m x (restrict K Q) f w = n x (restrict L Q) f w) ->
    total K (map (fun x => (P x, m x)) xs) f w = total L (map (fun x => (P x, n x)) xs) f w.
  Proof.
    intros X xs P m n K L f A H. unfold total.
    assert (E : forall B (h : X -> B), firsts (map (fun x => (P x, h x)) xs) = map (fun p => (fst p, h (snd p))) (firsts (map (fun x => (P x, x)) xs))).
    { intros B h. rewrite <- firsts_map, map_map. reflexivity. }
    rewrite (E _ m), (E _ n), !map_map. f_equal. apply map_ext_in. intros (Q, x) Hq. cbn [fst snd]. rewrite <- (A (ind Q)) by auto with bnd.
    destruct (Req_EM_T (K (ind Q) w) 0) as [Z|Z]; [rewrite Z; ring|]. f_equal. auto.
  Qed.
  Lemma sum_meas : forall (K : kernel) l, (forall P m, In (P, m) l -> K (ind P) w <> 0 -> meas (m (restrict K P))) -> (forall P m, In (P, m) l -> 0 <= K (ind P) w) ->
    meas (fun f w => sumR (map (fun p : (asg -> Prop) * (kernel -> kernel) => K (ind (fst p)) w * snd p (restrict K (fst p)) f w) l)).
  Proof.
    intros K. induction l as [|(P, m) l IH]; intros H Pos.
    - constructor; intros; cbn; lra.
    - destruct IH as [A B C]; [intros; eapply H; simpl; eauto|intros; eapply Pos; simpl; eauto|].
      assert (Po : 0 <= K (ind P) w) by (apply (Pos P m); now left). specialize (H P m (or_introl eq_refl)).
      constructor; intros; cbn [map fst snd]; change (sumR (?a :: ?l)) with (a + sumR l).
      + rewrite A by auto. destruct (Req_EM_T (K (ind P) w) 0) as [Z|Z]; [rewrite Z; ring|]. rewrite (me_plus _ (H Z)) by auto. ring.
      + rewrite B by auto. destruct (Req_EM_T (K (ind P) w) 0) as [Z|Z]; [rewrite Z; ring|]. rewrite (me_scale _ (H Z)) by auto. ring.
      + apply Rplus_le_le_0_compat; auto. destruct (Req_EM_T (K (ind P) w) 0) as [Z|Z]; [rewrite Z; lra|]. apply Rmult_le_pos; auto. now apply (me_pos _ (H Z)).
  Qed.
  Lemma mass_pos : forall K P, meas K -> 0 <= K (ind P) w.
  Proof. intros K P M. apply (me_pos K M); auto with bnd. intros a. unfold ind. destruct (dec (P a)); lra. Qed.

  (** ** Commands *)
  Section Commands.
    Context {N : numsys} {S : logsys} {D : distsys N S} (dlaw : dist D -> (fval -> R) -> R).
    Notation command := (command (N:=N) (D:=D)).
    Notation meaning := (meaning dlaw).

    Lemma command_ind' : forall P : command -> Prop,
      P Skip -> (forall x d, P (Sample x d)) -> (forall y t, P (Transform y t)) -> (forall e, P (Condition e)) -> (forall a, P (Constrain a)) ->
      (forall bs, Forall (fun b => P (snd b)) bs -> P (IfElse bs)) -> (forall n0 n1 f, (forall i, P (f i)) -> P (For n0 n1 f)) ->
      (forall x vs f, (forall n v, P (f n v)) -> P (Switch x vs f)) -> (forall cs, Forall P cs -> P (Sequence cs)) -> forall c, P c.
    Proof.
      intros P Hs Hx Ht Hc Hk Hi Hf Hw Hq. fix IH 1. intros [|x d|y t|e|a|bs|n0 n1 f|x vs f|cs]; [apply Hs|apply Hx|apply Ht|apply Hc|apply Hk| | | |].
      - apply Hi. induction bs as [|b bs IHb]; constructor; [apply IH|exact IHb].
      - apply Hf. intros i. apply IH.
      - apply Hw. intros n v. apply IH.
      - apply Hq. induction cs as [|c cs IHc]; constructor; [apply IH|exact IHc].
    Qed.
    Definition run (cs : list command) (K : kernel) : kernel := fold_left (fun K c => meaning c K) cs K.
    Lemma fold_local : forall A (m : A -> kernel -> kernel) l, (forall a, In a l -> local (m a)) -> local (fun K => fold_left (fun K a => m a K) l K).
    Proof. induction l as [|a l IH]; intros H K L E; cbn [fold_left]; auto. apply IH; [intros; apply H; now right|]. apply H; [now left|auto]. Qed.
    Lemma meaning_local : forall c, local (meaning c).
    Proof.
      induction c using command_ind'; intros K L E; cbn [ProgSpec.meaning]; auto.
      - intros f. apply E.
      - intros f. apply E.
      - now apply restrict_same.
      - apply total_local; auto. rewrite Forall_map. cbn [snd]. exact H.
      - apply (fold_local _ (fun i => meaning (f i))); auto.
      - apply total_local; auto. apply Forall_forall. intros p Hp. apply in_map_iff in Hp. destruct Hp as (q & <- & _). cbn [snd]. apply H.
      - apply (fold_local _ meaning); auto. now apply Forall_forall.
    Qed.

    (** distributions that are drawn exist *)
    Inductive able : command -> kernel -> Prop :=
    | able_skip : forall K, able Skip K
    | able_sample : forall x d l K, d x = Ok l -> wf_spe dlaw l -> able (Sample x d) K
    | able_transform : forall y t K, able (Transform y t) K
    | able_condition : forall e K, able (Condition e) K
    | able_if : forall bs K, (forall P c, In (P, c) (firsts (map (fun b => (test (fst b), snd b)) bs)) -> K (ind P) w <> 0 -> able c (restrict K P)) -> able (IfElse bs) K
    | able_switch : forall x vs f K, (forall P c, In (P, c) (firsts (map (fun p => (matches x (snd p), f (fst p) (snd p))) (numbered vs))) -> K (ind P) w <> 0 -> able c (restrict K P)) -> able (Switch x vs f) K
    | able_for : forall n0 n1 f K, able (Sequence (map f (range n0 n1))) K -> able (For n0 n1 f) K
    | able_nil : forall K, able (Sequence []) K
    | able_cons : forall c cs K, able c K -> able (Sequence cs) (meaning c K) -> able (Sequence (c :: cs)) K.
    Lemma fits_able : forall nominal c V K W, fits dlaw nominal c V K W -> able c K.
    Proof.
      intros nominal c V K W F. induction F; try (econstructor; eauto; fail).
      - apply (able_sample x d l); [assumption|]. match goal with H : sample_ok _ _ _ _ |- _ => apply H end.
      - constructor. intros P c Hc Z. apply (H2 P c Hc). exists w. exact Z.
      - constructor. intros P c Hc Z. apply (H3 P c Hc). exists w. exact Z.
    Qed.
    Lemma able_same : forall c K, able c K -> forall L, same K L -> able c L.
    Proof.
      induction 1; intros L E; try (econstructor; eauto; fail).
      - constructor. intros P c Hc Z. apply (H0 P c Hc); [now rewrite E|now apply restrict_same].
      - constructor. intros P c Hc Z. apply (H0 P c Hc); [now rewrite E|now apply restrict_same].
      - constructor; auto. apply IHable2. now apply meaning_local.
    Qed.
    Lemma able_first : forall o c bs K, able (IfElse ((o, c) :: bs)) K -> K (ind (test o)) w <> 0 -> able c (restrict K (test o)).
    Proof. intros o c bs K A Z. inversion A as [| | | |? ? H1| | | |]; subst. apply (H1 (test o) c); auto. now left. Qed.
    Lemma able_rest : forall o c bs K, able (IfElse ((o, c) :: bs)) K -> meas K -> K (ind (fun a => ~ test o a)) w <> 0 -> able (IfElse bs) (restrict K (fun a => ~ test o a)).
    Proof.
      intros o c bs K A M Z. inversion A as [| | | |? ? H1| | | |]; subst. constructor. intros P c' Hc Zp.
      assert (Z2 : K (ind (fun a => ~ test o a /\ P a)) w <> 0).
      { intros Z2. apply Zp. unfold restrict. rewrite (me_ext K (fun a => ind P a * ind _ a) (ind (fun a => ~ test o a /\ P a))) by (intro; apply (ind_and (fun a => ~ test o a))). rewrite Z2. unfold Rdiv. ring. }
      apply (able_same c' (restrict K (fun a => ~ test o a /\ P a))).
      - apply H1; auto. cbn [map fst snd]. now apply firsts_twice.
      - intros h. symmetry. now apply restrict_twice.
    Qed.
    Lemma meaning_meas : forall c K, able c K -> meas K -> meas (meaning c K).
    Proof.
      induction 1; intros M; cbn [ProgSpec.meaning]; auto.
      - rewrite H. pose proof (den_kernel dlaw l H0) as L. constructor; intros.
        + rewrite (me_ext K _ (fun a => den dlaw l f a + den dlaw l g a)) by (intro a; now apply (law_plus (L a))). apply (me_plus K M); now apply kernel_bnd.
        + rewrite (me_ext K _ (fun a => c * den dlaw l f a)) by (intro a; now apply (law_scale (L a))). apply (me_scale K M); now apply kernel_bnd.
        + apply (me_pos K M); [now apply kernel_bnd|]. intros a. now apply (law_pos (L a)).
      - constructor; intros.
        + apply (me_plus K M (fun a => f (upd a y _)) (fun a => g (upd a y _))); now apply bnd_comp.
        + apply (me_scale K M c (fun a => f (upd a y _))); now apply bnd_comp.
        + apply (me_pos K M (fun a => f (upd a y _))); [now apply bnd_comp|auto].
      - now apply me_restrict.
      - apply sum_meas; [|intros; now apply mass_pos]. intros P m Hm Z.
        assert (E : firsts (map (fun b => (test (fst b), meaning (snd b))) bs) = map (fun p => (fst p, meaning (snd p))) (firsts (map (fun b => (test (fst b), snd b)) bs))) by (rewrite <- firsts_map, map_map; reflexivity).
        rewrite E in Hm. apply in_map_iff in Hm. destruct Hm as ((Q, c) & [= <- <-] & Hc). cbn [fst snd]. apply (H0 Q c); auto. now apply me_restrict.
      - apply sum_meas; [|intros; now apply mass_pos]. intros P m Hm Z.
        assert (E : firsts (map (fun p => (matches x (snd p), meaning (f (fst p) (snd p)))) (numbered vs)) = map (fun p => (fst p, meaning (snd p))) (firsts (map (fun p => (matches x (snd p), f (fst p) (snd p))) (numbered vs)))) by (rewrite <- firsts_map, map_map; reflexivity).
        rewrite E in Hm. apply in_map_iff in Hm. destruct Hm as ((Q, c) & [= <- <-] & Hc). cbn [fst snd]. apply (H0 Q c); auto. now apply me_restrict.
      - specialize (IHable M). cbn [ProgSpec.meaning] in IHable. rewrite fold_map in IHable. exact IHable.
    Qed.
    Lemma run_meas : forall cs K, able (Sequence cs) K -> meas K -> meas (run cs K).
    Proof. intros cs K A M. exact (meaning_meas (Sequence cs) K A M). Qed.
    Lemma able_app : forall cs ds K, able (Sequence (cs ++ ds)) K -> able (Sequence cs) K /\ able (Sequence ds) (run cs K).
    Proof.
      induction cs as [|c cs IH]; intros ds K A; [split; [constructor|exact A]|]. inversion A as [| | | | | | | |? ? ? H2 H3]; subst. destruct (IH _ _ H3) as (A1 & A2). split; [now constructor|exact A2].
    Qed.
    Lemma run_app : forall cs ds K, run (cs ++ ds) K = run ds (run cs K).
    Proof. intros cs ds K. apply fold_left_app. Qed.
  End Commands.
End At.
