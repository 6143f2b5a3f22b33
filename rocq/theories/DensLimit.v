(** What densities mean: limits of probabilities. *)
From Coq Require Import List Bool String Reals Lra Lia ZArith QArith Qreals FunctionalExtensionality Permutation PeanoNat Rlimit.
From Verif Require Import Base Num Sets SetSpec SetIv SetProofs SetOr SetOps SetAlg SetBuilt
  Poly Trans TransSpec TransFacts PolyProofs InvProofs InvMain EvProofs ArithProofs
  Dnf DnfSpec DnfProofs DnfUnion Logs Spe SpeSpec SpeFacts SpeRect LeafProofs LeafEvents LeafCond SpeCons LeafGiven MemoProofs NormSorts LogprobProofs SpeEq CondTypes SpeOps DensSpec DensProofs ConstrainProofs.
Import ListNotations.
Local Open Scope R_scope.

(** ** Limits *)
Lemma lim0_limit : forall f l, lim0 f l <-> limit1_in f (fun h => 0 < h) l 0.
Proof.
  intros f l. unfold lim0, limit1_in, limit_in. cbn. unfold R_dist. split; intros H e He; destruct (H e) as (d & Hd & K); auto; exists d; split; auto.
  - intros h (H1 & H2). apply K. rewrite Rminus_0_r, Rabs_right in H2 by lra. lra.
  - intros h (H1 & H2). apply K. rewrite Rminus_0_r, Rabs_right by lra. lra.
Qed.
Lemma soon_and : forall P Q, soon P -> soon Q -> soon (fun h => P h /\ Q h).
Proof.
  intros P Q (d & Hd & H) (e & He & K). exists (Rmin d e). split; [now apply Rmin_pos|]. intros h (H1 & H2). pose proof (Rmin_l d e). pose proof (Rmin_r d e). split; [apply H|apply K]; lra.
Qed.
Lemma soon_impl : forall P Q : R -> Prop, (forall h, 0 < h -> P h -> Q h) -> soon P -> soon Q.
Proof. intros P Q I (d & Hd & H). exists d. split; auto. intros h Hh. apply I; [lra|auto]. Qed.
Lemma soon_true : forall P : R -> Prop, (forall h, 0 < h -> P h) -> soon P.
Proof. intros P H. exists 1. split; [lra|]. intros h Hh. apply H. lra. Qed.
Lemma soon_all : forall A (l : list A) (P : A -> R -> Prop), (forall a, In a l -> soon (P a)) -> soon (fun h => forall a, In a l -> P a h).
Proof.
  induction l as [|a l IH]; intros P H; [apply soon_true; intros h _ a []|]. apply (soon_impl (fun h => P a h /\ forall b, In b l -> P b h)).
  - intros h _ (H1 & H2) b [<-|Hb]; auto.
  - apply soon_and; [apply H; now left|]. apply IH. intros; apply H; now right.
Qed.
Lemma lim0_soon : forall f g l, soon (fun h => f h = g h) -> lim0 g l -> lim0 f l.
Proof.
  intros f g l (d & Hd & H) G e He. destruct (G e He) as (k & Hk & K). exists (Rmin d k). split; [now apply Rmin_pos|]. intros h (H1 & H2). pose proof (Rmin_l d k). pose proof (Rmin_r d k). rewrite H by lra. apply K. lra.
Qed.
Lemma lim0_ext : forall f g l, (forall h, 0 < h -> f h = g h) -> lim0 g l -> lim0 f l.
Proof. intros f g l H. apply lim0_soon. now apply soon_true. Qed.
Lemma lim0_const : forall c, lim0 (fun _ => c) c.
Proof. intros c e He. exists 1. split; [lra|]. intros. rewrite Rminus_diag_eq, Rabs_R0 by auto. auto. Qed.
Lemma lim0_plus : forall f g l m, lim0 f l -> lim0 g m -> lim0 (fun h => f h + g h) (l + m).
Proof. intros f g l m. rewrite !lim0_limit. apply limit_plus. Qed.
Lemma lim0_mult : forall f g l m, lim0 f l -> lim0 g m -> lim0 (fun h => f h * g h) (l * m).
Proof. intros f g l m. rewrite !lim0_limit. apply limit_mul. Qed.
Lemma lim0_scale : forall c f l, lim0 f l -> lim0 (fun h => c * f h) (c * l).
Proof. intros c f l H. apply (lim0_mult (fun _ => c)); auto. apply lim0_const. Qed.
Lemma lim0_sum : forall A (l : list A) (f : A -> R -> R) (g : A -> R), (forall a, In a l -> lim0 (f a) (g a)) -> lim0 (fun h => sumR (map (fun a => f a h) l)) (sumR (map g l)).
Proof.
  induction l as [|a l IH]; intros f g H; [apply (lim0_const 0)|]. apply (lim0_plus (f a) (fun h => sumR (map (fun a => f a h) l))); [apply H; now left|]. apply IH. intros; apply H; now right.
Qed.
Lemma lim0_prod : forall A (l : list A) (f : A -> R -> R) (g : A -> R), (forall a, In a l -> lim0 (f a) (g a)) -> lim0 (fun h => prodR (map (fun a => f a h) l)) (prodR (map g l)).
Proof.
  induction l as [|a l IH]; intros f g H; [apply (lim0_const 1)|]. apply (lim0_mult (f a) (fun h => prodR (map (fun a => f a h) l))); [apply H; now left|]. apply IH. intros; apply H; now right.
Qed.
Lemma lim0_id : lim0 (fun h => 2 * h) 0.
Proof. intros e He. exists (e / 2). split; [lra|]. intros h Hh. rewrite Rminus_0_r, Rabs_right; lra. Qed.
Lemma lim0_pow : forall k, lim0 (fun h => (2 * h) ^ Datatypes.S k) 0.
Proof. induction k as [|k IH]; [apply (lim0_ext _ (fun h => 2 * h)); [intros; simpl; ring|apply lim0_id]|]. replace 0 with (0 * 0) by ring. apply (lim0_mult (fun h => 2 * h) (fun h => (2 * h) ^ Datatypes.S k)); auto. apply lim0_id. Qed.
(** a limit is unique *)
Lemma lim0_unique : forall f l m, lim0 f l -> lim0 f m -> l = m.
Proof.
  intros f l m H K. apply lim0_limit in H, K. apply (single_limit f (fun h => 0 < h) l m 0); auto. intros a Ha. exists (a / 2). split; [lra|]. unfold R_dist. rewrite Rminus_0_r, Rabs_right; lra.
Qed.

(** ** Points and their neighbourhoods *)
Definition nears (h : R) (a : values) : list (string * (fval -> R)) := map (fun p => (fst p, ind (close h (snd p)))) a.
Definition marks (a : values) : list (string * (fval -> R)) := map (fun p => (fst p, ind (eq (taken (snd p))))) a.
Lemma ind_forall_cons : forall A (P : A -> Prop) (p : A) a, ind (fun _ : unit => forall q, In q (p :: a) -> P q) tt = ind (fun _ : unit => P p) tt * ind (fun _ : unit => forall q, In q a -> P q) tt.
Proof. intros A P p a. rewrite <- ind_and. apply ind_eq. split; [intros H; split; [apply H; now left|intros q Hq; apply H; now right]|]. intros (H1 & H2) q [<-|Hq]; auto. Qed.
Lemma near_rect : forall h a w, ind (near h a) w = rect (nears h a) w.
Proof.
  intros h a w. induction a as [|p a IH]; [apply ind_true; intros p []|]. change (rect (nears h (p :: a)) w) with (ind (close h (snd p)) (w (fst p)) * rect (nears h a) w). rewrite <- IH.
  rewrite <- (ind_eq _ _ (fun _ : unit => close h (snd p) (w (fst p))) (close h (snd p)) tt _), <- (ind_eq _ _ (fun _ : unit => near h a w) (near h a) tt _) by tauto. rewrite <- ind_and. apply ind_eq.
  unfold near. split; [intros H; split; [apply H; now left|intros q Hq; apply H; now right]|]. intros (H1 & H2) q [<-|Hq]; auto.
Qed.
Lemma agrees_rect : forall a w, ind (agrees a) w = rect (marks a) w.
Proof.
  intros a w. induction a as [|p a IH]; [apply ind_true; intros p []|]. change (rect (marks (p :: a)) w) with (ind (eq (taken (snd p))) (w (fst p)) * rect (marks a) w). rewrite <- IH.
  rewrite <- (ind_eq _ _ (fun _ : unit => taken (snd p) = w (fst p)) (eq (taken (snd p))) tt _), <- (ind_eq _ _ (fun _ : unit => agrees a w) (agrees a) tt _) by tauto. rewrite <- ind_and. apply ind_eq.
  unfold agrees. split; [intros H; split; [symmetry; apply H; now left|intros q Hq; apply H; now right]|]. intros (H1 & H2) q [<-|Hq]; auto.
Qed.
Lemma nears_ok : forall h a, rect_ok (nears h a).
Proof. intros. unfold nears, rect_ok. rewrite Forall_map. apply Forall_forall. intros. apply bnd_ind. Qed.
Lemma marks_ok : forall a, rect_ok (marks a).
Proof. intros. unfold marks, rect_ok. rewrite Forall_map. apply Forall_forall. intros. apply bnd_ind. Qed.
Lemma inside_map : forall A B (g : string * A -> B) (V : string -> Prop) (a : list (string * A)), inside V (map (fun p => (fst p, g p)) a) = map (fun p => (fst p, g p)) (inside V a).
Proof. intros. unfold inside. induction a as [|p a IH]; auto. cbn [map filter fst]. destruct (decb _); cbn [map]; now rewrite IH. Qed.
Lemma outside_none : forall A (V : string -> Prop) (a : list (string * A)), (forall p, In p a -> V (fst p)) -> outside V a = [].
Proof. intros A V a H. unfold outside. induction a as [|p a IH]; auto. cbn [filter]. assert (E : decb (V (fst p)) = true) by (apply decb_true, H; now left). rewrite E. cbn [negb]. apply IH. intros; apply H; now right. Qed.
Lemma inside_app : forall A (V : string -> Prop) (a b : list (string * A)), inside V (a ++ b) = inside V a ++ inside V b.
Proof. intros. apply filter_app. Qed.
Lemma outside_app : forall A (V : string -> Prop) (a b : list (string * A)), outside V (a ++ b) = outside V a ++ outside V b.
Proof. intros. apply filter_app. Qed.

Section Limit.
  Context {N : numsys} {S : logsys} {D : distsys N S}.
  Context (dlaw : dist D -> (fval -> R) -> R) (dpdf : dist D -> R -> R).
  Context (pdf : pdf_ok (S:=S) dpdf).
  Notation spe := (spe D).
  Notation den := (den dlaw).
  Notation wf_spe := (wf_spe dlaw).
  Notation wf_leaf := (wf_leaf dlaw).
  Notation density := (density dlaw dpdf).
  Notation leaf_density := (leaf_density dlaw dpdf).
  Notation fixed := (fixed dlaw dpdf).
  Notation op_at := (op_at dlaw dpdf).
  Notation dens_at := (dens_at dlaw dpdf).

  (** ** Operators that concern the variables V *)
  Record nice (V : string -> Prop) (K : (asg -> R) -> asg -> R) : Prop := {
    n_bnd : forall f, bnd f -> bnd (K f);
    n_factor : forall f g w, bnd f -> ignores V g -> K (fun a => f a * g a) w = K f w * g w;
    n_local : forall (U : string -> Prop) f, ignores U f -> ignores U (K f)
  }.
  Lemma den_nice : forall s, wf_spe s -> nice (vars s) (den s).
  Proof.
    intros s W. split.
    - intros f. apply kernel_bnd. now apply den_kernel.
    - intros f g w. now apply den_factor.
    - intros U f I w w' E. apply (den_local dlaw s W U f I). intros x Hx. apply E. tauto.
  Qed.
  Lemma op_prod_nice : forall (op : spe -> (asg -> R) -> asg -> R) l, (forall c, In c l -> nice (vars c) (op c)) -> nice (pvars l) (op_prod op l).
  Proof.
    intros op l. induction l as [|c l IH]; intros H.
    - split; cbn [op_prod]; auto.
    - assert (Hc := H c (or_introl eq_refl)). assert (Hl : nice (pvars l) (op_prod op l)) by (apply IH; intros; apply H; now right). split; cbn [op_prod].
      + intros f Hf. apply (n_bnd _ _ Hc), (n_bnd _ _ Hl), Hf.
      + intros f g w Hf Hg. replace (op_prod op l (fun a => f a * g a)) with (fun a => op_prod op l f a * g a).
        * apply (n_factor _ _ Hc); [now apply (n_bnd _ _ Hl)|]. intros u u' E. apply Hg. intros x Hx. apply E. intros K. apply Hx. apply pvars_cons. auto.
        * extensionality u. symmetry. apply (n_factor _ _ Hl); auto. intros v v' E. apply Hg. intros x Hx. apply E. intros K. apply Hx. apply pvars_cons. auto.
      + intros U f I. apply (n_local _ _ Hc), (n_local _ _ Hl), I.
  Qed.
  Lemma op_at_nice : forall a c, wf_spe c -> nice (vars c) (fixed c (portion (vars c) a)) -> nice (vars c) (op_at a c).
  Proof. intros a c W H. unfold ConstrainProofs.op_at. destruct (portion (vars c) a); auto. now apply den_nice. Qed.
  Lemma fixed_nice : forall s, wf_spe s -> forall a, nice (vars s) (fixed s a).
  Proof.
    assert (Lf : forall s, is_leaf s = true -> wf_spe s -> forall a, nice (vars s) (fixed s a)).
    { intros s L W a. apply (wf_leaf_spe dlaw s L) in W. pose proof (base_in dlaw s W) as Bs.
      assert (E : (exists x v, a = [(x, v)]) \/ forall f w, fixed s a f w = f w).
      { destruct a as [|(x, v) [|]]; [right|left; eauto|right]; destruct s; try discriminate; reflexivity. }
      destruct E as [(x & v & ->)|E].
      - assert (F : fixed s [(x, v)] = fun f w => f (upd w (base s) (taken v))) by (extensionality f; extensionality w; now apply leaf_fixed). rewrite F. split.
        + intros f Hf. now apply (bnd_comp _ _ (fun w => upd w (base s) (taken v)) f).
        + intros f g w Hf Hg. f_equal. apply Hg. intros y Hy. unfold upd. destruct (String.eqb_spec (base s) y) as [<-|]; [tauto|auto].
        + intros U f I w w' E. apply I. intros y Hy. unfold upd. destruct (String.eqb (base s) y); auto.
      - assert (F : fixed s a = fun f w => f w) by (extensionality f; extensionality w; apply E). rewrite F. split; auto. }
    induction s using spe_ind'; intros W a'; auto.
    - assert (Hc : forall c, In c l -> nice (vars (SumSPE l)) (fixed (fst c) a')).
      { intros c Hc. destruct (H c Hc (sum_wf dlaw l W c Hc) a') as [K1 K2 K3]. split; auto. intros f g w Hf Hg. apply K2; auto. intros u u' E. apply Hg. intros x Hx. apply E. intros K. apply Hx. now apply (sum_vars dlaw l c W Hc). }
      set (k := fun c : spe * lg S => if Nat.eqb (fst (density (fst c) a')) (fst (density (SumSPE l) a')) then toP (snd c) * snd (density (fst c) a') / snd (density (SumSPE l) a') else 0).
      assert (E : fixed (SumSPE l) a' = fun f w => sumR (map (fun c => k c * fixed (fst c) a' f w) l)).
      { extensionality f. extensionality w. rewrite sum_fixed_eq. apply sumR_ext. intros c _. unfold k. destruct (Nat.eqb _ _); auto. ring. }
      rewrite E. split.
      + intros f Hf. apply (bnd_sum _ _ l (fun c w => k c * fixed (fst c) a' f w)). intros c Hl. apply bnd_scale. now apply (n_bnd _ _ (Hc c Hl)).
      + intros f g w Hf Hg. rewrite <- sumR_scale. apply sumR_ext. intros c Hl. rewrite (n_factor _ _ (Hc c Hl)) by auto. ring.
      + intros U f I w w' Ew. apply sumR_ext. intros c Hl. f_equal. now apply (n_local _ _ (Hc c Hl) U f I).
    - change (fixed (ProductSPE l) a') with (op_prod (op_at a') l). apply op_prod_nice. intros c Hc. apply op_at_nice; [eapply prod_wf; eauto|]. apply H; auto. eapply prod_wf; eauto.
  Qed.
  (** the product rule *)
  Lemma op_prod_rect : forall (op : spe -> (asg -> R) -> asg -> R) l L w, (forall c, In c l -> nice (vars c) (op c)) -> ForallOrdPairs (apart (D:=D)) l -> rect_ok L ->
    op_prod op l (rect L) w = prodR (map (fun c => op c (rect (inside (vars c) L)) w) l) * rect (outside (pvars l) L) w.
  Proof.
    intros op. induction l as [|c l IH]; intros L w H A HL.
    - cbn [op_prod map prodR fold_right]. unfold outside. rewrite (filter_ext_list _ _ (fun _ => true)).
      + assert (E : forall A (l : list A), filter (fun _ => true) l = l) by (induction l as [|? ? IHl]; simpl; [auto|now rewrite IHl]). rewrite E. ring.
      + intros p _. apply negb_true_iff, decb_false. intros [].
    - inversion A as [|? ? Ac Al]; subst. pose proof (apart_pvars c l Ac) as Ap. assert (Hc := H c (or_introl eq_refl)). assert (Hl : forall d, In d l -> nice (vars d) (op d)) by (intros; apply H; now right).
      assert (I1 : ignores (pvars l) (rect (inside (vars c) L))) by (apply rect_ignores; intros p Hp K; apply inside_in in Hp; exact (Ap _ (proj2 Hp) K)).
      assert (I2 : ignores (vars c) (rect (outside (vars c) L))) by (apply rect_ignores; intros p Hp; apply outside_in in Hp; tauto).
      cbn [op_prod map]. change (prodR (?a :: ?l)) with (a * prodR l).
      replace (op_prod op l (rect L)) with (fun u => rect (inside (vars c) L) u * op_prod op l (rect (outside (vars c) L)) u).
      + rewrite (n_factor _ _ Hc); [|now apply rect_bnd, rect_ok_inside|apply (n_local _ _ (op_prod_nice op l Hl)); exact I2].
        rewrite (IH (outside (vars c) L) w Hl Al (rect_ok_outside _ _ HL)).
        rewrite (outside_outside _ (pvars l) (vars c) (pvars (c :: l))) by (intros x; apply pvars_cons).
        rewrite Rmult_assoc. f_equal. f_equal. apply prodR_ext. intros d Hd. rewrite inside_outside; auto. intros x Vd Vc. apply (Ap x Vc). apply pvars_in. eauto.
      + extensionality u. replace (rect L) with (fun v => rect (outside (vars c) L) v * rect (inside (vars c) L) v) by (extensionality v; rewrite (rect_split (vars c) L); ring).
        rewrite (n_factor _ _ (op_prod_nice op l Hl)); [ring|now apply rect_bnd, rect_ok_outside|exact I1].
  Qed.
  Lemma prod_apart : forall l, wf_spe (ProductSPE l) -> ForallOrdPairs (apart (D:=D)) l.
  Proof. intros l W. apply W. Qed.
  Lemma fixed_prod_rect : forall l a L w, wf_spe (ProductSPE l) -> rect_ok L ->
    fixed (ProductSPE l) a (rect L) w = prodR (map (fun c => op_at a c (rect (inside (vars c) L)) w) l) * rect (outside (pvars l) L) w.
  Proof.
    intros l a L w W HL. change (fixed (ProductSPE l) a) with (op_prod (op_at a) l). apply op_prod_rect; auto using prod_apart. intros c Hc. apply op_at_nice; [eapply prod_wf; eauto|]. apply fixed_nice. eapply prod_wf; eauto.
  Qed.

  (** ** The assigned values *)
  Lemma fixed_reach : forall s, wf_spe s -> forall a, asked s a -> forall f g w, (forall u, same_out (vars s) w u -> agrees a u -> f u = g u) -> fixed s a f w = fixed s a g w.
  Proof.
    assert (Lf : forall s, is_leaf s = true -> wf_spe s -> forall a, asked s a -> forall f g w, (forall u, same_out (vars s) w u -> agrees a u -> f u = g u) -> fixed s a f w = fixed s a g w).
    { intros s L W a As f g w E. apply (wf_leaf_spe dlaw s L) in W. pose proof (base_in dlaw s W) as Bs. assert (exists v, a = [(base s, v)]) as (v & ->) by (destruct s; try discriminate; exact As).
      rewrite !leaf_fixed by auto. apply E.
      - intros x Hx. unfold upd. destruct (String.eqb_spec (base s) x) as [<-|]; tauto.
      - intros p [<-|[]]. cbn [fst snd]. unfold upd. now rewrite String.eqb_refl. }
    induction s using spe_ind'; intros W a' As f g w' E; auto; try (apply Lf; auto; reflexivity).
    - rewrite !sum_fixed_eq. apply sumR_ext. intros c Hc. destruct (Nat.eqb _ _); auto. f_equal. apply H; auto.
      + eapply sum_wf; eauto.
      + cbn [asked] in As. exact (All_In _ (fun c => asked (fst c) a') _ _ As Hc).
      + intros u Hu. apply E. intros x Hx. apply Hu. intros K. apply Hx. now apply (sum_vars dlaw l c W Hc).
    - rewrite !prod_fixed_eq. destruct As as (A1 & A2). pose proof (prod_wf dlaw l W) as Wc. pose proof (prod_apart l W) as Ap. clear W.
      assert (Hk : forall c, In c l -> forall f g w, (forall u, same_out (vars c) w u -> agrees (portion (vars c) a') u -> f u = g u) -> op_at a' c f w = op_at a' c g w).
      { intros c Hc f0 g0 w0 E0. destruct (All_In _ _ _ _ A2 Hc) as [K|K].
        - unfold ConstrainProofs.op_at. rewrite K. apply den_reach; auto. intros u Hu. apply E0; auto. rewrite K. intros p [].
        - pose proof (H c Hc (Wc c Hc) _ K f0 g0 w0 E0) as Q. unfold ConstrainProofs.op_at. destruct (portion (vars c) a') eqn:Ep; [|exact Q]. apply den_reach; auto. intros u Hu. apply E0; auto. intros p []. }
      assert (G : forall u, same_out (pvars l) w' u -> agrees (portion (pvars l) a') u -> f u = g u).
      { intros u Hu Hg. apply E; auto. intros p Hp. apply Hg. apply portion_in. split; auto. apply A1. exact Hp. }
      clear E A1 A2 H. revert w' G. induction l as [|c l IH]; intros w' G.
      + cbn [op_prod]. apply G; [intros x _; auto|]. intros p Hp. apply portion_in in Hp. destruct Hp as (_ & []).
      + inversion Ap as [|? ? Ac Al]; subst. cbn [op_prod]. apply Hk; [now left|]. intros u Hu Hg. apply IH; auto; try (intros; apply Wc; now right); try (intros; apply Hk; auto; now right).
        intros v Hv Hgv. apply G.
        * intros x Hx. rewrite <- Hv by (intros K; apply Hx, pvars_cons; auto). apply Hu. intros K. apply Hx, pvars_cons. auto.
        * intros p Hp. apply portion_in in Hp. destruct Hp as (Hp & K). apply pvars_cons in K. destruct (dec (pvars l (fst p))) as [Kl|Kl]; [apply Hgv, portion_in; auto|]. destruct K as [K|K]; [|tauto].
          rewrite <- Hv by auto. apply Hg, portion_in. auto.
  Qed.

  (** ** Densities are not negative *)
  Lemma pprod_nonneg : forall l, (forall q, In q l -> 0 <= snd q) -> 0 <= snd (pprod l).
  Proof. intros l H. rewrite pprod_snd. induction l as [|q l IH]; [cbn; lra|]. cbn [map fold_right]. apply Rmult_le_pos; [apply H; now left|]. apply IH. intros; apply H; now right. Qed.
  Lemma density_nonneg : forall s, wf_spe s -> forall a, 0 <= snd (density s a).
  Proof.
    assert (Lf : forall s, is_leaf s = true -> wf_spe s -> forall a, 0 <= snd (density s a)).
    { intros s L W a. apply (wf_leaf_spe dlaw s L) in W. pose proof (leaf_law_law dlaw s W) as Ll. assert (E : (exists x v, a = [(x, v)]) \/ density s a = (0%nat, 0)).
      { destruct a as [|(x, v) [|]]; [right|left; eauto|right]; destruct s; try discriminate; reflexivity. }
      destruct E as [(x & v & ->)|E]; [|rewrite E; cbn; lra]. rewrite leaf_density_any by auto. destruct s as [disc y d supp cond env|y c env|y ws|l|l]; try discriminate; cbn [DensSpec.leaf_density leaf_den_law] in *.
      - destruct disc; cbn [snd]; [apply (law_01 Ll)|]. destruct v as [[|r|]|]; try lra. pose proof (proj2 pdf d r). destruct W as (_ & _ & W3 & W4 & _). destruct cond; auto.
        apply Rmult_le_pos; [apply Rmult_le_pos; auto; apply ind_01|]. left. now apply Rinv_0_lt_compat.
      - cbn [snd]. apply ind_01.
      - cbn [snd]. apply (law_01 Ll). }
    induction s using spe_ind'; intros W a'; auto.
    - cbn [DensSpec.density]. unfold mix_density. destruct (least _); [|cbn; lra]. cbn [snd]. assert (K : forall q, In q (map (fun c : spe * lg S => (density (fst c) a', toP (snd c))) l) -> 0 <= snd q * snd (fst q)).
      { intros q Hq. apply in_map_iff in Hq. destruct Hq as (c & <- & Hc). cbn [fst snd]. apply Rmult_le_pos; [apply toP_nonneg|]. apply H; auto. eapply sum_wf; eauto. }
      revert K. generalize (map (fun c : spe * lg S => (density (fst c) a', toP (snd c))) l). intros m K. induction m as [|q m IH]; [cbn; lra|]. cbn [filter].
      assert (IH' : 0 <= sumR (map (fun q => snd q * snd (fst q)) (filter (fun q => Nat.eqb (fst (fst q)) n) m))) by (apply IH; intros; apply K; now right).
      destruct (Nat.eqb _ n); auto. cbn [map]. change (sumR (?a :: ?l)) with (a + sumR l). specialize (K q (or_introl eq_refl)). lra.
    - rewrite prod_density_eq. apply pprod_nonneg. intros q Hq. apply in_map_iff in Hq. destruct Hq as (c & <- & Hc). unfold ConstrainProofs.dens_at. destruct (portion (vars c) a'); [cbn; lra|]. apply H; auto. eapply prod_wf; eauto.
  Qed.
  Lemma prodR_pos_inv : forall A (f : A -> R) l, (forall a, In a l -> 0 <= f a) -> 0 < prodR (map f l) -> forall a, In a l -> 0 < f a.
  Proof.
    induction l as [|b l IH]; intros H P a Ha; [destruct Ha|]. cbn [map] in P. change (prodR (?a :: ?l)) with (a * prodR l) in P.
    assert (P1 : 0 <= prodR (map f l)). { clear -H. assert (K : forall a, In a l -> 0 <= f a) by (intros; apply H; now right). clear H. induction l as [|a l IH]; [cbn; lra|]. apply Rmult_le_pos; [apply K; now left|]. apply IH. intros; apply K; now right. }
    pose proof (H b (or_introl eq_refl)). assert (0 < f b /\ 0 < prodR (map f l)) as (P2 & P3).
    { split; [destruct H0|destruct P1]; auto; exfalso; nra. }
    destruct Ha as [<-|Ha]; auto. apply IH; auto. intros; apply H; now right.
  Qed.
  Lemma sum_coef : forall l a d, wf_spe (SumSPE l) -> least (map (fun c : spe * lg S => density (fst c) a) l) = Some d -> 0 < snd (density (SumSPE l) a) ->
    forall h : spe * lg S -> R,
    snd (density (SumSPE l) a) * sumR (map (fun c => if Nat.eqb (fst (density (fst c) a)) (fst (density (SumSPE l) a)) then toP (snd c) * snd (density (fst c) a) / snd (density (SumSPE l) a) * h c else 0) l) =
    sumR (map (fun c => if Nat.eqb (fst (density (fst c) a)) d then toP (snd c) * (snd (density (fst c) a) * h c) else 0) l).
  Proof.
    intros l a d W Hl P h. rewrite <- sumR_scale_l. apply sumR_ext. intros c _. replace (fst (density (SumSPE l) a)) with d by now rewrite (sum_density_eq dlaw dpdf l a d Hl).
    destruct (Nat.eqb _ d); [field; lra|ring].
  Qed.
  Lemma fixed_one : forall s, wf_spe s -> forall a, asked s a -> 0 < snd (density s a) -> forall w, fixed s a (fun _ => 1) w = 1.
  Proof.
    assert (Lf : forall s, is_leaf s = true -> forall a w, fixed s a (fun _ => 1) w = 1) by (intros s L [|(x, v) [|]] w; destruct s; try discriminate; reflexivity).
    induction s using spe_ind'; intros W a' As P w'; auto.
    - cbn [asked] in As. assert (exists d, least (map (fun c : spe * lg S => density (fst c) a') l) = Some d) as (d & Hd).
      { destruct (least (map (fun c : spe * lg S => density (fst c) a') l)) as [d|] eqn:E; [eauto|]. exfalso. cbn [DensSpec.density] in P. unfold mix_density in P. rewrite map_map in P. cbn [fst] in P. rewrite E in P. cbn in P. lra. }
      apply (Rmult_eq_reg_l (snd (density (SumSPE l) a'))); [|lra]. rewrite sum_fixed_eq, (sum_coef l a' d W Hd P (fun c => fixed (fst c) a' (fun _ => 1) w')), Rmult_1_r.
      rewrite (sum_density_eq dlaw dpdf l a' d Hd). cbn [snd]. rewrite <- sum_if. apply sumR_ext. intros c Hc. destruct (Nat.eqb _ d); auto. f_equal.
      pose proof (density_nonneg (fst c) (sum_wf dlaw l W c Hc) a') as [G|G]; [|rewrite <- G; ring]. rewrite H; auto; [ring|eapply sum_wf; eauto|]. exact (All_In _ (fun c => asked (fst c) a') _ _ As Hc).
    - rewrite prod_fixed_eq. destruct As as (A1 & A2). rewrite prod_density_eq, pprod_snd, map_map in P. pose proof (prod_wf dlaw l W) as Wc.
      assert (Pc : forall c, In c l -> 0 < snd (dens_at a' c)).
      { apply (prodR_pos_inv _ (fun c => snd (dens_at a' c)) l); auto. intros c Hc. unfold ConstrainProofs.dens_at. destruct (portion (vars c) a'); [cbn; lra|]. apply density_nonneg; auto. }
      assert (Q : forall c, In c l -> op_at a' c (fun _ => 1) = fun _ => 1).
      { intros c Hc. specialize (Pc c Hc). unfold ConstrainProofs.op_at, ConstrainProofs.dens_at in *. extensionality u. destruct (All_In _ _ _ _ A2 Hc) as [K|K].
        - rewrite K. apply (law_one (den_kernel dlaw c (Wc c Hc) u)).
        - destruct (portion (vars c) a') eqn:Ep; [apply (law_one (den_kernel dlaw c (Wc c Hc) u))|]. apply H; auto. }
      clear -Q. revert w'. assert (G : op_prod (op_at a') l (fun _ => 1) = fun _ => 1); [|intros w'; now rewrite G]. induction l as [|c l IH]; auto. cbn [op_prod]. rewrite IH by (intros; apply Q; now right). apply Q. now left.
  Qed.
End Limit.
