(** Densities as probabilities of points and as limits of probabilities of neighbourhoods. *)
From Coq Require Import List Bool String Reals Lra Lia ZArith QArith Qreals FunctionalExtensionality Permutation PeanoNat Rlimit.
From Verif Require Import Base Num Sets SetSpec SetIv SetProofs SetOr SetOps SetAlg SetBuilt
  Poly Trans TransSpec TransFacts PolyProofs InvProofs InvMain EvProofs ArithProofs
  Dnf DnfSpec DnfProofs DnfUnion Logs Spe SpeSpec SpeFacts SpeRect LeafProofs LeafEvents LeafCond SpeCons LeafGiven MemoProofs NormSorts LogprobProofs SpeEq CondTypes SpeOps DensSpec DensProofs ConstrainProofs DensLimit.
Import ListNotations.
Local Open Scope R_scope.

(** ** Points of the line *)
Lemma soon_lt : forall d, 0 < d -> soon (fun h => h < d).
Proof. intros d Hd. exists d. split; auto. intros; lra. Qed.
Lemma soon_impl : forall P Q : R -> Prop, (forall h, 0 < h -> P h -> Q h) -> soon P -> soon Q.
Proof. intros P Q H (d & Hd & K). exists d. split; auto. intros h Hh. apply H; [lra|auto]. Qed.
Lemma soon_all : forall A (l : list A) (P : A -> R -> Prop), (forall a, In a l -> soon (P a)) -> soon (fun h => forall a, In a l -> P a h).
Proof.
  induction l as [|a l IH]; intros P H; [exists 1; split; [lra|]; intros h _ a []|].
  destruct (H a (or_introl eq_refl)) as (d & Hd & K). destruct (IH P (fun b Hb => H b (or_intror Hb))) as (e & He & G).
  exists (Rmin d e). split; [now apply Rmin_pos|]. intros h Hh b [<-|Hb]; [apply K|apply G; auto]; pose proof (Rmin_l d e); pose proof (Rmin_r d e); lra.
Qed.
(** integers close to r are r *)
Lemma soon_integer : forall r, soon (fun h => forall z, Rabs (IZR z - r) <= h -> IZR z = r).
Proof.
  intros r. destruct (archimed r) as (H1 & H2). set (n := up r) in *. clearbody n.
  destruct (Req_dec (IZR n - r) 1) as [E|E].
  - exists 1. split; [lra|]. intros h Hh z Hz. assert (- h <= IZR z - r <= h) by (unfold Rabs in Hz; destruct (Rcase_abs _); lra). assert (Er : r = IZR (n - 1)) by (rewrite minus_IZR; lra). transitivity (IZR (n - 1)); [f_equal|auto]. assert (z < n - 1 + 1)%Z by (apply lt_IZR; rewrite plus_IZR; lra). assert (n - 1 - 1 < z)%Z by (apply lt_IZR; rewrite minus_IZR; lra). lia.
  - exists (Rmin (IZR n - r) (r - (IZR n - 1))). split; [apply Rmin_pos; lra|]. intros h Hh z Hz. pose proof (Rmin_l (IZR n - r) (r - (IZR n - 1))). pose proof (Rmin_r (IZR n - r) (r - (IZR n - 1))).
    assert (- h <= IZR z - r <= h) as Hz' by (unfold Rabs in Hz; destruct (Rcase_abs _); lra).
    assert (z < n)%Z by (apply lt_IZR; lra). assert (n - 1 < z)%Z by (apply lt_IZR; rewrite minus_IZR; lra). lia.
Qed.
Lemma soon_point : forall c r, soon (fun h => Rabs (c - r) <= h -> c = r).
Proof.
  intros c r. destruct (Req_dec c r) as [E|E]; [exists 1; split; [lra|auto]|]. exists (Rabs (c - r)). split; [apply Rabs_pos_lt; lra|]. intros h Hh K. lra.
Qed.

Section Point.
  Context {N : numsys} {S : logsys} {D : distsys N S}.
  Context (dlaw : dist D -> (fval -> R) -> R) (dpdf : dist D -> R -> R).
  Context (pdf : pdf_ok (S:=S) dpdf).
  Notation spe := (spe D).
  Notation den := (den dlaw).
  Notation wf_spe := (wf_spe dlaw).
  Notation wf_leaf := (wf_leaf dlaw).
  Notation density := (density dlaw dpdf).
  Notation leaf_density := (leaf_density dlaw dpdf).
  Notation fixed := (fixed dlaw dpdf).
  Notation op_at := (op_at dlaw dpdf).
  Notation dens_at := (dens_at dlaw dpdf).

  (** ** Leaves *)
  Lemma leaf_base_value : forall s w v, wf_leaf s -> leaf_place s w v (base s) = v.
  Proof.
    intros s w v W. destruct s as [disc x d supp cond env|x c env|x ws|l|l]; cbn [leaf_place base] in *; try contradiction.
    - destruct W as (_ & _ & _ & _ & (B & _) & _). now apply place_base.
    - destruct W as ((B & _) & _). now apply place_base.
    - unfold upd. now rewrite String.eqb_refl.
  Qed.
  Lemma leaf_rect : forall s (k : fval -> R) L w, wf_leaf s -> bnd k -> (forall p, In p L -> ~ vars s (fst p)) ->
    den s (fun a => rect L a * k (a (base s))) w = leaf_den_law dlaw s k * rect L w.
  Proof.
    intros s k L w W Bk HL. pose proof (wf_leaf_leaf dlaw s W) as Il. assert (Ws : wf_spe s) by now apply wf_leaf_spe.
    replace (fun a => rect L a * k (a (base s))) with (fun a : asg => k (a (base s)) * rect L a) by (extensionality a; ring).
    rewrite (den_factor dlaw s (fun a => k (a (base s)))); auto; [|now apply (bnd_comp _ _ (fun a : asg => a (base s)) k)|now apply rect_ignores]. f_equal.
    rewrite den_leaf by auto. f_equal. extensionality v. now rewrite leaf_base_value.
  Qed.
  (** a leaf that is not continuous *)
  Definition jumps (s : spe) : Prop := match s with RealLeaf false _ _ _ _ _ => False | _ => True end.
  Lemma jump_density : forall s v, is_leaf s = true -> jumps s -> leaf_density s v = (0%nat, leaf_den_law dlaw s (ind (eq (taken v)))).
  Proof. intros [[|] x d supp cond env|x c env|x ws|l|l] v Il J; try discriminate; try destruct J; reflexivity. Qed.
  Lemma real_law_as : forall d supp cond (Z : fval -> Prop) f g, law (dlaw d) -> dlaw d (ind Z) = 0 -> bnd f -> bnd g -> (forall v, ~ Z v -> f v = g v) -> real_law dlaw d supp cond f = real_law dlaw d supp cond g.
  Proof.
    intros d supp cond Z f g Ld HZ Hf Hg E. unfold real_law. destruct cond; [f_equal|]; apply (law_as Ld Z); auto.
    - apply bnd_mult; auto. apply bnd_ind.
    - apply bnd_mult; auto. apply bnd_ind.
    - intros v Hv. now rewrite E.
  Qed.
  Lemma jump_soon : forall s v, wf_leaf s -> jumps s -> finite_val v -> soon (fun h => leaf_den_law dlaw s (ind (close h v)) = leaf_den_law dlaw s (ind (eq (taken v)))).
  Proof.
    intros s v W J Fv. destruct s as [[|] x d supp cond env|x c env|x ws|l|l]; try destruct J; try destruct W; cbn [leaf_den_law].
    - destruct H0 as (_ & Dk & _). pose proof (d_law _ _ _ Dk) as Ld. pose proof (law_full Ld _ (d_int _ _ _ Dk eq_refl)) as Z.
      destruct v as [[|r|]|t]; try destruct Fv.
      + apply (soon_impl (fun h => forall z, Rabs (IZR z - r) <= h -> IZR z = r)); [|apply soon_integer]. intros h Hh K.
        apply (real_law_as d supp cond (fun v => ~ is_integer v)); auto using bnd_ind. intros v Hv. apply ind_eq. cbn [close taken]. assert (is_integer v) as (z & ->) by (destruct (dec (is_integer v)); tauto).
        split; [intros G; now rewrite (K z G)|]. intros G. injection G as <-. rewrite Rminus_diag_eq, Rabs_R0 by auto. lra.
      + exists 1. split; [lra|]. intros h Hh. f_equal. apply ind_iff. intros [q|u]; cbn [close taken]; split; intros G; try congruence; try destruct G.
    - destruct v as [[|r|]|t]; try destruct Fv.
      + apply (soon_impl (fun h => Rabs (toR c - r) <= h -> toR c = r)); [|apply soon_point]. intros h Hh K. apply ind_eq. cbn [close taken]. split; [intros G; now rewrite (K G)|]. intros G. injection G as <-. rewrite Rminus_diag_eq, Rabs_R0 by auto. lra.
      + exists 1. split; [lra|]. intros h Hh. apply ind_eq. cbn [close taken]. split; [intros []|discriminate].
    - exists 1. split; [lra|]. intros h Hh. unfold nom_law. f_equal. apply map_ext. intros p. f_equal. apply ind_eq. destruct v as [[|r|]|t]; try destruct Fv; cbn [close taken]; split; try discriminate; try tauto; congruence.
  Qed.

  (** ** Points of positive probability *)
  Lemma atomic_portion : forall s V a, every (atomic_at a) s -> every (atomic_at (D:=D) (portion V a)) s.
  Proof.
    intros s V a. apply every_impl. intros [[|] x d supp cond env|x c env|x ws|l|l]; cbn [atomic_at]; auto. intros H K. apply H. apply in_map_iff in K. destruct K as (p & <- & K). apply portion_in in K. apply in_map, K.
  Qed.
  Lemma clear_portion : forall s V a X Y, (forall x, In x Y -> In x X) -> every (clear_of X a) s -> every (clear_of (D:=D) Y (portion V a)) s.
  Proof.
    intros s V a X Y HX. apply every_impl. intros t H. destruct t; cbn [clear_of] in *; auto; intros K y Hy; apply H; auto; apply in_map_iff in K; destruct K as (p & <- & K); apply portion_in in K; apply in_map, K.
  Qed.
  Lemma smooth_portion : forall s V a, every (smooth_at dlaw dpdf a) s -> every (smooth_at dlaw dpdf (portion V a)) s.
  Proof.
    intros s V a. apply every_impl. intros [[|] x d supp cond env|x c env|x ws|l|l]; cbn [smooth_at]; auto. intros H r K. apply H. apply portion_in in K. apply K.
  Qed.
  Lemma finite_portion : forall V a, finite_values a -> finite_values (portion V a).
  Proof. intros V a H. unfold finite_values in *. rewrite Forall_forall in *. intros p Hp. apply portion_in in Hp. now apply H. Qed.
  Lemma marks_inside : forall V a, inside V (marks a) = marks (portion V a).
  Proof. intros. apply (inside_map _ _ (fun p => ind (eq (taken (snd p))))). Qed.
  Lemma nears_inside : forall V h a, inside V (nears h a) = nears h (portion V a).
  Proof. intros. apply (inside_map _ _ (fun p => ind (close h (snd p)))). Qed.
  Lemma sum_zero : forall A (f : A -> R) l, (forall a, In a l -> 0 <= f a) -> sumR (map f l) = 0 -> forall a, In a l -> f a = 0.
  Proof.
    induction l as [|b l IH]; intros H E a Ha; [destruct Ha|]. cbn [map] in E. change (sumR (?a :: ?l)) with (a + sumR l) in E.
    assert (0 <= sumR (map f l)). { clear -H. assert (K : forall a, In a l -> 0 <= f a) by (intros; apply H; now right). clear H. induction l as [|a l IH]; [cbn; lra|]. cbn [map]. change (sumR (?a :: ?l)) with (a + sumR l). specialize (IH (fun a Ha => K a (or_intror Ha))). specialize (K a (or_introl eq_refl)). lra. }
    pose proof (H b (or_introl eq_refl)). destruct Ha as [<-|Ha]; [lra|]. apply IH; auto; [intros; apply H; now right|lra].
  Qed.
  Lemma least_in : forall l d, least l = Some d -> exists q, In q l /\ fst q = d /\ 0 < snd q.
  Proof.
    induction l as [|q l IH]; intros d H; cbn [least] in H; [discriminate|]. destruct (dec (0 < snd q)) as [P|P].
    - destruct (least l) as [m|] eqn:E; injection H as <-.
      + destruct (Nat.min_dec (fst q) m) as [K|K]; rewrite K; [exists q; repeat split; auto; now left|]. destruct (IH m eq_refl) as (r & R1 & R2 & R3). exists r. repeat split; auto. now right.
      + exists q. repeat split; auto. now left.
    - destruct (IH d H) as (r & R1 & R2 & R3). exists r. repeat split; auto. now right.
  Qed.
  Lemma least_le : forall l d, least l = Some d -> forall q, In q l -> 0 < snd q -> (d <= fst q)%nat.
  Proof.
    induction l as [|q l IH]; intros d H r Hr P; [destruct Hr|]. cbn [least] in H. destruct Hr as [->|Hr].
    - destruct (dec (0 < snd r)); [|tauto]. injection H as <-. destruct (least l); lia.
    - destruct (dec (0 < snd q)).
      + injection H as <-. destruct (least l) as [m|] eqn:E; [specialize (IH m eq_refl r Hr P); lia|]. exfalso. apply (least_none _ E r Hr P).
      + now apply (IH d H).
  Qed.
  Lemma leaf_asked : forall (s : spe) a, is_leaf s = true -> asked s a -> exists v, a = [(base s, v)].
  Proof. intros s a Il H. destruct s; try discriminate; exact H. Qed.

  Theorem point_exact : forall s, wf_spe s -> forall a, asked s a -> every (atomic_at a) s ->
    fst (density s a) = 0%nat /\
    forall L w, rect_ok L -> every (clear_of (map fst L) a) s -> den s (rect (L ++ marks a)) w = snd (density s a) * fixed s a (rect L) w.
  Proof.
    assert (Lf : forall s, is_leaf s = true -> wf_spe s -> forall a, asked s a -> every (atomic_at a) s ->
      fst (density s a) = 0%nat /\
      forall L w, rect_ok L -> every (clear_of (map fst L) a) s -> den s (rect (L ++ marks a)) w = snd (density s a) * fixed s a (rect L) w).
    { intros s Il Ws a As At. assert (W : wf_leaf s) by now apply wf_leaf_spe. destruct (leaf_asked s a Il As) as (v & ->).
      assert (J : jumps s). { apply every_here in At. destruct s as [[|] x d supp cond env|x c env|x ws|l|l]; cbn; auto. cbn in At. tauto. }
      rewrite leaf_density_any, jump_density by auto. split; auto. intros L w HL Cl. cbn [snd].
      assert (Co : forall p, In p L -> ~ vars s (fst p)).
      { apply every_here in Cl. intros p Hp. assert (Cl' : In (base s) (map fst [(base s, v)]) -> forall x, In x (map fst L) -> ~ vars s x) by (destruct s; try discriminate; exact Cl). apply Cl'; [now left|now apply in_map]. }
      rewrite leaf_fixed by auto. replace (rect L (upd w (base s) (taken v))) with (rect L w).
      - rewrite <- (leaf_rect s (ind (eq (taken v))) L w W (bnd_ind _ _) Co). f_equal. extensionality u. rewrite rect_app. f_equal. unfold rect. cbn. ring.
      - apply (rect_ignores (vars s) L Co). intros x Hx. unfold upd. destruct (String.eqb_spec (base s) x) as [<-|]; auto. destruct Hx. now apply (base_in dlaw). }
    induction s using spe_ind'; intros W a' As At; auto.
    - assert (IH : forall c, In c l -> fst (density (fst c) a') = 0%nat /\ forall L w, rect_ok L -> every (clear_of (map fst L) a') (fst c) -> den (fst c) (rect (L ++ marks a')) w = snd (density (fst c) a') * fixed (fst c) a' (rect L) w).
      { intros c Hc. apply H; auto; [eapply sum_wf; eauto|exact (All_In _ (fun c => asked (fst c) a') _ _ As Hc)|eapply every_sum; eauto]. }
      assert (Nn : forall c, In c l -> 0 <= snd (density (fst c) a')) by (intros c Hc; apply density_nonneg; auto; eapply sum_wf; eauto).
      assert (E : forall L w, rect_ok L -> every (clear_of (map fst L) a') (SumSPE l) -> den (SumSPE l) (rect (L ++ marks a')) w = sumR (map (fun c => toP (snd c) * (snd (density (fst c) a') * fixed (fst c) a' (rect L) w)) l)).
      { intros L w HL Cl. cbn [SpeSpec.den]. apply sumR_ext. intros c Hc. f_equal. apply IH; auto. eapply every_sum; eauto. }
      destruct (least (map (fun c : spe * lg S => density (fst c) a') l)) as [d|] eqn:Hd.
      + destruct (least_in _ _ Hd) as (q & Hq & Q1 & Q2). apply in_map_iff in Hq. destruct Hq as (c & <- & Hc). rewrite (proj1 (IH c Hc)) in Q1. subst d.
        pose proof (sum_density_eq dlaw dpdf l a' 0%nat Hd) as Ds. split; [now rewrite Ds|]. intros L w HL Cl. rewrite E by auto. clear E.
        assert (Al : forall (g : spe * lg S -> R), sumR (map (fun c => if Nat.eqb (fst (density (fst c) a')) 0 then g c else 0) l) = sumR (map g l)) by (intros g; apply sumR_ext; intros b Hb; now rewrite (proj1 (IH b Hb))).
        destruct (density_nonneg dlaw dpdf pdf (SumSPE l) W a') as [P|P].
        * rewrite sum_fixed_eq, (sum_coef dlaw dpdf l a' 0%nat W Hd P (fun c => fixed (fst c) a' (rect L) w)), Al. reflexivity.
        * rewrite <- P, Rmult_0_l. rewrite Ds in P. cbn [snd] in P. rewrite <- sum_if, Al in P.
          assert (Z : forall b, In b l -> toP (snd b) * snd (density (fst b) a') = 0).
          { apply (sum_zero _ (fun b : spe * lg S => toP (snd b) * snd (density (fst b) a'))); auto. intros b Hb. apply Rmult_le_pos; auto using toP_nonneg. }
          apply sumR_zero. intros b Hb. rewrite <- Rmult_assoc, Z by auto. ring.
      + assert (Ds : density (SumSPE l) a' = (0%nat, 0)) by (cbn [DensSpec.density]; unfold mix_density; rewrite map_map; cbn [fst]; now rewrite Hd).
        rewrite Ds. split; auto. intros L w HL Cl. rewrite E by auto. cbn [snd]. rewrite Rmult_0_l.
        apply sumR_zero. intros b Hb.
        assert (Z : snd (density (fst b) a') = 0). { destruct (Nn b Hb) as [P|P]; auto. exfalso. apply (least_none _ Hd (density (fst b) a')); auto. apply in_map_iff. exists b. auto. }
        rewrite Z. ring.
    - destruct As as (A1 & A2). pose proof (prod_wf dlaw l W) as Wc.
      assert (IH : forall c, In c l -> fst (dens_at a' c) = 0%nat /\ forall L w, rect_ok L -> every (clear_of (map fst L) a') c -> den c (rect (L ++ marks (portion (vars c) a'))) w = snd (dens_at a' c) * op_at a' c (rect L) w).
      { intros c Hc. unfold ConstrainProofs.dens_at, ConstrainProofs.op_at. destruct (All_In _ _ _ _ A2 Hc) as [K|K].
        - rewrite K. split; auto. intros L w HL Cl. cbn [snd]. change (marks []) with (@nil (string * (fval -> R))). rewrite app_nil_r. ring.
        - destruct (portion (vars c) a') as [|p b] eqn:Ep.
          + split; auto. intros L w HL Cl. cbn [snd]. change (marks []) with (@nil (string * (fval -> R))). rewrite app_nil_r. ring.
          + rewrite <- Ep in *. destruct (H c Hc (Wc c Hc) _ K) as (I1 & I2); [apply atomic_portion; eapply every_prod; eauto|]. split; auto. intros L w HL Cl. apply I2; auto. eapply clear_portion; eauto. }
      rewrite prod_density_eq. split.
      + rewrite pprod_fst. rewrite map_map. clear -IH. induction l as [|c l IHl]; auto. cbn [map list_sum fold_right]. rewrite (proj1 (IH c (or_introl eq_refl))). change (fold_right Init.Nat.add 0%nat ?m) with (list_sum m). rewrite IHl by (intros; apply IH; now right). auto.
      + intros L w HL Cl. rewrite prod_den_rect by auto using rect_ok_app, marks_ok. rewrite fixed_prod_rect by auto. rewrite pprod_snd, map_map. fold (prodR (map (fun c => snd (dens_at a' c)) l)). rewrite <- Rmult_assoc, <- prodR_mult. f_equal.
        * apply prodR_ext. intros c Hc. rewrite inside_app, marks_inside. apply IH; auto using rect_ok_inside.
          apply (every_impl (clear_of (map fst L) a')); [|eapply every_prod; eauto]. intros t Ht. destruct t; cbn [clear_of] in *; auto; intros K y Hy; apply Ht; auto; apply in_map_iff in Hy; destruct Hy as (p & <- & Hp); apply inside_in in Hp; apply in_map, Hp.
        * rewrite outside_app, rect_app. rewrite (outside_none _ (pvars l) (marks a')); [unfold rect at 2; cbn; ring|]. intros p Hp. unfold marks in Hp. apply in_map_iff in Hp. destruct Hp as (q & <- & Hq). exact (A1 q Hq).
  Qed.

  (** ** Limits of probabilities *)
  Lemma side : forall (i : interval N) r, off_ends i r ->
    (in_iv i (FNum r) /\ soon (fun h => forall u, close h (RNum (Fin r)) u -> in_iv i u)) \/
    (~ in_iv i (FNum r) /\ soon (fun h => forall u, close h (RNum (Fin r)) u -> ~ in_iv i u)).
  Proof.
    intros i r (Oa & Ob).
    assert (Sa : (above (iv_a i) (iv_lo i) r /\ soon (fun h => forall q, Rabs (q - r) <= h -> above (iv_a i) (iv_lo i) q)) \/ (~ above (iv_a i) (iv_lo i) r /\ soon (fun h => forall q, Rabs (q - r) <= h -> ~ above (iv_a i) (iv_lo i) q))).
    { destruct (iv_a i) as [|c|]; cbn [above].
      - left. split; auto. exists 1. split; [lra|auto].
      - assert (toR c <> r) by (intros K; apply Oa; cbn; now rewrite K). assert (Gap : soon (fun h => h < Rabs (toR c - r))) by (apply soon_lt, Rabs_pos_lt; lra).
        destruct (Rlt_dec (toR c) r) as [K|K]; [left|right]; (split; [destruct (iv_lo i); lra|]); (apply (soon_impl (fun h => h < Rabs (toR c - r))); [|exact Gap]); intros h Hh G q Hq; assert (- h <= q - r <= h) by (unfold Rabs in Hq; destruct (Rcase_abs _) in Hq; lra); unfold Rabs in G; destruct (Rcase_abs _) in G; destruct (iv_lo i); lra.
      - right. split; auto. exists 1. split; [lra|auto]. }
    assert (Sb : (below (iv_b i) (iv_ro i) r /\ soon (fun h => forall q, Rabs (q - r) <= h -> below (iv_b i) (iv_ro i) q)) \/ (~ below (iv_b i) (iv_ro i) r /\ soon (fun h => forall q, Rabs (q - r) <= h -> ~ below (iv_b i) (iv_ro i) q))).
    { destruct (iv_b i) as [|c|]; cbn [below].
      - right. split; auto. exists 1. split; [lra|auto].
      - assert (toR c <> r) by (intros K; apply Ob; cbn; now rewrite K). assert (Gap : soon (fun h => h < Rabs (toR c - r))) by (apply soon_lt, Rabs_pos_lt; lra).
        destruct (Rlt_dec r (toR c)) as [K|K]; [left|right]; (split; [destruct (iv_ro i); lra|]); (apply (soon_impl (fun h => h < Rabs (toR c - r))); [|exact Gap]); intros h Hh G q Hq; assert (- h <= q - r <= h) by (unfold Rabs in Hq; destruct (Rcase_abs _) in Hq; lra); unfold Rabs in G; destruct (Rcase_abs _) in G; destruct (iv_ro i); lra.
      - left. split; auto. exists 1. split; [lra|auto]. }
    destruct Sa as [(A1 & A2)|(A1 & A2)].
    - destruct Sb as [(B1 & B2)|(B1 & B2)].
      + left. split; [apply in_iv_num; auto|]. destruct A2 as (d & Hd & A2), B2 as (e & He & B2). exists (Rmin d e). split; [now apply Rmin_pos|]. intros h Hh u Hu. pose proof (Rmin_l d e). pose proof (Rmin_r d e).
        destruct u as [q|t]; [|destruct Hu]. apply in_iv_num. split; [apply (A2 h)|apply (B2 h)]; auto; lra.
      + right. split; [intros K; apply in_iv_num in K; tauto|]. revert B2. apply soon_impl. intros h Hh G [q|t] Hu K; [|destruct Hu]. apply (G q Hu). apply in_iv_num in K. apply K.
    - right. split; [intros K; apply in_iv_num in K; tauto|]. revert A2. apply soon_impl. intros h Hh G [q|t] Hu K; [|destruct Hu]. apply (G q Hu). apply in_iv_num in K. apply K.
  Qed.
  Lemma cont_limit : forall x d supp cond env v, wf_leaf (RealLeaf false x d supp cond env) -> finite_val v ->
    (forall r, v = RNum (Fin r) -> smooth dlaw dpdf d r /\ (cond = true -> off_ends supp r)) ->
    let p := snd (leaf_density (RealLeaf false x d supp cond env) v) in
    lim0 (fun h => real_law dlaw d supp cond (ind (close h v)) / (2 * h) ^ 1) p /\ (p = 0 -> soon (fun h => real_law dlaw d supp cond (ind (close h v)) = 0)).
  Proof.
    intros x d supp cond env v W Fv Sm p. destruct W as (_ & _ & Dk & Wc & _). pose proof (d_law _ _ _ Dk) as Ld. pose proof (real_law_law dlaw d supp cond Ld Wc) as Lr.
    destruct v as [[|r|]|t]; try destruct Fv.
    - destruct (Sm r eq_refl) as ((S1 & S2) & Of). clear Sm. cbn [DensSpec.leaf_density snd] in p. destruct cond.
      + destruct (side supp r (Of eq_refl)) as [(K1 & K2)|(K1 & K2)].
        * assert (E : soon (fun h => real_law dlaw d supp true (ind (close h (RNum (Fin r)))) = dlaw d (ind (close h (RNum (Fin r)))) / dlaw d (ind (in_iv supp)))).
          { revert K2. apply soon_impl. intros h Hh G. unfold real_law. f_equal. apply law_ext. intros u. unfold ind at 2. destruct (dec (in_iv supp u)) as [Q|Q]; [ring|]. rewrite ind_false; [ring|]. auto. }
          assert (Ep : p = dpdf d r / dlaw d (ind (in_iv supp))) by (unfold p; rewrite ind_true by auto; unfold Rdiv; ring). rewrite Ep. split.
          -- apply (lim0_soon _ (fun h => / dlaw d (ind (in_iv supp)) * (dlaw d (ind (close h (RNum (Fin r)))) / (2 * h)))).
             ++ revert E. apply soon_impl. intros h Hh E. rewrite E. field. lra.
             ++ replace (dpdf d r / dlaw d (ind (in_iv supp))) with (/ dlaw d (ind (in_iv supp)) * dpdf d r) by (unfold Rdiv; ring). now apply lim0_scale.
          -- intros Z. assert (Z' : dpdf d r = 0). { apply (Rmult_eq_reg_r (/ dlaw d (ind (in_iv supp)))); [rewrite Rmult_0_l; exact Z|]. apply Rinv_neq_0_compat. lra. }
             specialize (S2 Z'). destruct E as (e & He & E), S2 as (f & Hf & S2). exists (Rmin e f). split; [now apply Rmin_pos|]. intros h Hh. pose proof (Rmin_l e f). pose proof (Rmin_r e f). rewrite E, S2 by lra. unfold Rdiv. ring.
        * assert (E : soon (fun h => real_law dlaw d supp true (ind (close h (RNum (Fin r)))) = 0)).
          { revert K2. apply soon_impl. intros h Hh G. unfold real_law. rewrite (law_ext _ (fun _ => 0)); [rewrite (law_const Ld); unfold Rdiv; ring|]. intros u. unfold ind at 1. destruct (dec (close h (RNum (Fin r)) u)) as [Q|Q]; [|ring]. rewrite ind_false; [ring|]. auto. }
          assert (Ep : p = 0) by (unfold p; rewrite ind_false by auto; unfold Rdiv; ring). rewrite Ep. split; auto. apply (lim0_soon _ (fun _ => 0)); [|apply lim0_const]. revert E. apply soon_impl. intros h Hh E. rewrite E. unfold Rdiv. ring.
      + split; auto. apply (lim0_ext _ (fun h => dlaw d (ind (close h (RNum (Fin r)))) / (2 * h))); auto. intros h Hh. unfold real_law. f_equal. ring.
    - assert (Z : forall h, real_law dlaw d supp cond (ind (close h (RStr t))) = 0).
      { intros h. rewrite (real_law_as d supp cond (fun v => ~ is_num v) _ (fun _ => 0)); auto using bnd_ind, bnd_const; [apply (law_const Lr)|now apply (law_full Ld), (d_num _ _ _ Dk)|].
        intros v Hv. apply ind_false. intros K. destruct v as [q|u]; [destruct K|]. apply Hv. intros (q & Q). discriminate. }
      cbn [DensSpec.leaf_density snd] in p. subst p. split; [|intros _; exists 1; split; [lra|auto]]. apply (lim0_ext _ (fun _ => 0)); [|apply lim0_const]. intros h Hh. rewrite Z. unfold Rdiv. ring.
  Qed.
  Lemma nears_single : forall L h x v u, rect (L ++ nears h [(x, v)]) u = rect L u * ind (close h v) (u x).
  Proof. intros. rewrite rect_app. unfold rect at 2. cbn. ring. Qed.
  Lemma pow_div : forall h d e, 0 < h -> (d < e)%nat -> / (2 * h) ^ d = / (2 * h) ^ e * (2 * h) ^ Datatypes.S (e - d - 1).
  Proof. intros h d e Hh Hd. replace e with (d + Datatypes.S (e - d - 1))%nat at 1 by lia. rewrite pow_add. field. split; apply pow_nonzero; lra. Qed.
  Lemma den_null_rect : forall s L M w, wf_spe s -> rect_ok L -> rect_ok M -> (forall u, 0 <= rect M u) -> den s (rect M) w = 0 -> den s (rect (L ++ M)) w = 0.
  Proof.
    intros s L M w W HL HM Pos Z. pose proof (den_kernel dlaw s W w) as Ld. destruct (rect_bnd L HL) as (B & HB). assert (B0 : 0 <= B) by (pose proof (HB w); pose proof (Rabs_pos (rect L w)); lra).
    pose proof (rect_bnd M HM) as BM. pose proof (rect_bnd _ (rect_ok_app L M HL HM)) as BLM.
    assert (U : den s (rect (L ++ M)) w <= den s (fun u => B * rect M u) w).
    { apply (law_mono Ld); auto using bnd_scale. intros u. rewrite rect_app. apply Rmult_le_compat_r; auto. apply Rle_trans with (Rabs (rect L u)); auto using Rle_abs. }
    assert (V : den s (fun u => (- B) * rect M u) w <= den s (rect (L ++ M)) w).
    { apply (law_mono Ld); auto using bnd_scale. intros u. rewrite rect_app. apply Rmult_le_compat_r; auto. pose proof (Rle_abs (- rect L u)) as K. rewrite Rabs_Ropp in K. specialize (HB u). lra. }
    rewrite (law_scale Ld) in U, V by auto. rewrite Z in *. lra.
  Qed.
  Lemma nears_pos : forall h a u, 0 <= rect (nears h a) u.
  Proof. intros. rewrite <- near_rect. apply ind_01. Qed.
  Lemma lim0_prod_pow : forall A (l : list A) (f : A -> R -> R) (d : A -> nat), forall h, 0 < h -> prodR (map (fun a => f a h) l) / (2 * h) ^ list_sum (map d l) = prodR (map (fun a => f a h / (2 * h) ^ d a) l).
  Proof.
    intros A l f d h Hh. induction l as [|a l IH]; cbn [map list_sum fold_right prodR]; [cbn; field|]. fold (list_sum (map d l)). fold (prodR (map (fun a => f a h) l)). fold (prodR (map (fun a => f a h / (2 * h) ^ d a) l)). rewrite <- IH, pow_add. field. split; apply pow_nonzero; lra.
  Qed.

  Theorem point_limit : forall s, wf_spe s -> forall a, asked s a -> finite_values a -> every heavy s -> every (smooth_at dlaw dpdf a) s ->
    (forall L w, rect_ok L -> every (clear_of (map fst L) a) s -> lim0 (fun h => den s (rect (L ++ nears h a)) w / (2 * h) ^ fst (density s a)) (snd (density s a) * fixed s a (rect L) w)) /\
    (snd (density s a) = 0 -> soon (fun h => forall w, den s (rect (nears h a)) w = 0)).
  Proof.
    assert (Lf : forall s, is_leaf s = true -> wf_spe s -> forall a, asked s a -> finite_values a -> every (smooth_at dlaw dpdf a) s ->
      (forall L w, rect_ok L -> every (clear_of (map fst L) a) s -> lim0 (fun h => den s (rect (L ++ nears h a)) w / (2 * h) ^ fst (density s a)) (snd (density s a) * fixed s a (rect L) w)) /\
      (snd (density s a) = 0 -> soon (fun h => forall w, den s (rect (nears h a)) w = 0))).
    { intros s Il Ws a As Fa Sm. assert (W : wf_leaf s) by now apply wf_leaf_spe. destruct (leaf_asked s a Il As) as (v & ->). inversion Fa as [|? ? Fv _]; subst. cbn [snd] in Fv.
      assert (K : lim0 (fun h => leaf_den_law dlaw s (ind (close h v)) / (2 * h) ^ fst (leaf_density s v)) (snd (leaf_density s v)) /\ (snd (leaf_density s v) = 0 -> soon (fun h => leaf_den_law dlaw s (ind (close h v)) = 0))).
      { destruct (dec (jumps s)) as [J|J].
        - rewrite jump_density by auto. cbn [fst snd]. pose proof (jump_soon s v W J Fv) as E. split; [|intros Z; now rewrite <- Z].
          apply (lim0_soon _ (fun _ => leaf_den_law dlaw s (ind (eq (taken v))))); [|apply lim0_const]. revert E. apply soon_impl. intros h Hh E. rewrite E. cbn [pow]. field.
        - destruct s as [[|] x d supp cond env|x c env|x ws|l|l]; try (destruct J; exact Logic.I). apply every_here in Sm. cbn [smooth_at] in Sm. apply (cont_limit x d supp cond env v W Fv). intros r ->. apply Sm. now left. }
      rewrite leaf_density_any by auto. destruct K as (K1 & K2). split.
      - intros L w HL Cl. assert (Co : forall p, In p L -> ~ vars s (fst p)).
        { apply every_here in Cl. intros p Hp. assert (Cl' : In (base s) (map fst [(base s, v)]) -> forall x, In x (map fst L) -> ~ vars s x) by (destruct s; try discriminate; exact Cl). apply Cl'; [now left|now apply in_map]. }
        rewrite leaf_fixed by auto. replace (rect L (upd w (base s) (taken v))) with (rect L w).
        + rewrite Rmult_comm. apply (lim0_ext _ (fun h => rect L w * (leaf_den_law dlaw s (ind (close h v)) / (2 * h) ^ fst (leaf_density s v)))); [|now apply lim0_scale].
          intros h Hh. replace (rect (L ++ nears h [(base s, v)])) with (fun u => rect L u * ind (close h v) (u (base s))) by (extensionality u; now rewrite nears_single). rewrite leaf_rect by auto using bnd_ind. unfold Rdiv. ring.
        + apply (rect_ignores (vars s) L Co). intros x Hx. unfold upd. destruct (String.eqb_spec (base s) x) as [<-|]; auto. destruct Hx. now apply (base_in dlaw).
      - intros Z. specialize (K2 Z). revert K2. apply soon_impl. intros h Hh E w. replace (rect (nears h [(base s, v)])) with (fun u => rect [] u * ind (close h v) (u (base s))) by (extensionality u; now rewrite <- nears_single). rewrite leaf_rect by (auto using bnd_ind; intros p []); rewrite E; ring. }
    induction s using spe_ind'; intros W a' As Fa Hv Sm; auto.
    - assert (IH : forall c, In c l -> (forall L w, rect_ok L -> every (clear_of (map fst L) a') (fst c) -> lim0 (fun h => den (fst c) (rect (L ++ nears h a')) w / (2 * h) ^ fst (density (fst c) a')) (snd (density (fst c) a') * fixed (fst c) a' (rect L) w)) /\
        (snd (density (fst c) a') = 0 -> soon (fun h => forall w, den (fst c) (rect (nears h a')) w = 0))).
      { intros c Hc. apply H; auto; [eapply sum_wf; eauto|exact (All_In _ (fun c => asked (fst c) a') _ _ As Hc)|eapply every_sum; eauto|eapply every_sum; eauto]. }
      assert (Nn : forall c, In c l -> 0 <= snd (density (fst c) a')) by (intros c Hc; apply density_nonneg; auto; eapply sum_wf; eauto).
      assert (Hw : forall c, In c l -> 0 < toP (snd c)) by (apply Forall_forall; exact (every_here heavy _ Hv)).
      assert (Nl : forall c L w, In c l -> rect_ok L -> snd (density (fst c) a') = 0 -> soon (fun h => den (fst c) (rect (L ++ nears h a')) w = 0)).
      { intros c L w Hc HL Z. generalize (proj2 (IH c Hc) Z). apply soon_impl. intros h Hh E. apply den_null_rect; auto using nears_ok, nears_pos. eapply sum_wf; eauto. }
      destruct (least (map (fun c : spe * lg S => density (fst c) a') l)) as [d|] eqn:Hd.
      + pose proof (sum_density_eq dlaw dpdf l a' d Hd) as Ds.
        assert (P : 0 < snd (density (SumSPE l) a')).
        { destruct (density_nonneg dlaw dpdf pdf (SumSPE l) W a') as [P|P]; auto. exfalso. destruct (least_in _ _ Hd) as (q & Hq & Q1 & Q2). apply in_map_iff in Hq. destruct Hq as (c & <- & Hc).
          rewrite Ds in P. cbn [snd] in P. rewrite <- sum_if in P. symmetry in P.
          pose proof (sum_zero _ (fun c : spe * lg S => if Nat.eqb (fst (density (fst c) a')) d then toP (snd c) * snd (density (fst c) a') else 0) l) as G. assert (G0 : forall c, In c l -> 0 <= (if Nat.eqb (fst (density (fst c) a')) d then toP (snd c) * snd (density (fst c) a') else 0)) by (intros b Hb; destruct (Nat.eqb (fst (density (fst b) a')) d); [apply Rmult_le_pos; auto using toP_nonneg|lra]). specialize (G G0 P c Hc).
          cbv beta in G. rewrite Q1, Nat.eqb_refl in G. specialize (Hw c Hc). pose proof (Rmult_lt_0_compat _ _ Hw Q2). lra. }
        split; [|intros Z; lra]. intros L w HL Cl. rewrite sum_fixed_eq, (sum_coef dlaw dpdf l a' d W Hd P (fun c => fixed (fst c) a' (rect L) w)). replace (fst (density (SumSPE l) a')) with d by now rewrite Ds.
        apply (lim0_ext _ (fun h => sumR (map (fun c : spe * lg S => toP (snd c) * den (fst c) (rect (L ++ nears h a')) w / (2 * h) ^ d) l))).
        { intros h Hh. cbn [SpeSpec.den]. unfold Rdiv. now rewrite sumR_scale. }
        apply (lim0_sum _ l (fun c h => toP (snd c) * den (fst c) (rect (L ++ nears h a')) w / (2 * h) ^ d)). intros c Hc. destruct (IH c Hc) as (I1 & I2). specialize (I1 L w HL (every_sum _ _ _ Cl Hc)).
        destruct (Nat.eqb_spec (fst (density (fst c) a')) d) as [E|E].
        * rewrite <- E. apply (lim0_ext _ (fun h => toP (snd c) * (den (fst c) (rect (L ++ nears h a')) w / (2 * h) ^ fst (density (fst c) a')))); [intros h Hh; unfold Rdiv; ring|]. now apply lim0_scale.
        * destruct (Nn c Hc) as [Pc|Pc].
          -- assert (Le : (d <= fst (density (fst c) a'))%nat) by (apply (least_le _ _ Hd (density (fst c) a')); auto; apply in_map_iff; eauto).
             apply (lim0_ext _ (fun h => toP (snd c) * (den (fst c) (rect (L ++ nears h a')) w / (2 * h) ^ fst (density (fst c) a')) * (2 * h) ^ Datatypes.S (fst (density (fst c) a') - d - 1))).
             { intros h Hh. unfold Rdiv. rewrite (pow_div h d (fst (density (fst c) a'))) by (auto; lia). ring. }
             replace 0 with (toP (snd c) * (snd (density (fst c) a') * fixed (fst c) a' (rect L) w) * 0) by ring.
             apply (lim0_mult (fun h => toP (snd c) * (den (fst c) (rect (L ++ nears h a')) w / (2 * h) ^ fst (density (fst c) a')))); [now apply lim0_scale|apply lim0_pow].
          -- apply (lim0_soon _ (fun _ => 0)); [|apply lim0_const]. generalize (Nl c L w Hc HL (eq_sym Pc)). apply soon_impl. intros h Hh Z. rewrite Z. unfold Rdiv. ring.
      + assert (Ds : density (SumSPE l) a' = (0%nat, 0)) by (cbn [DensSpec.density]; unfold mix_density; rewrite map_map; cbn [fst]; now rewrite Hd).
        assert (Z : forall c, In c l -> snd (density (fst c) a') = 0) by (intros c Hc; destruct (Nn c Hc) as [P|P]; auto; exfalso; apply (least_none _ Hd (density (fst c) a')); auto; apply in_map_iff; eauto).
        rewrite Ds. cbn [fst snd]. split.
        * intros L w HL Cl. rewrite Rmult_0_l. apply (lim0_soon _ (fun _ => 0)); [|apply lim0_const].
          generalize (soon_all _ l (fun c h => den (fst c) (rect (L ++ nears h a')) w = 0) (fun c Hc => Nl c L w Hc HL (Z c Hc))). apply soon_impl. intros h Hh E. cbn [SpeSpec.den]. rewrite sumR_zero; [unfold Rdiv; ring|]. intros c Hc. rewrite E by auto. ring.
        * intros _. generalize (soon_all _ l (fun c h => forall w, den (fst c) (rect (nears h a')) w = 0) (fun c Hc => proj2 (IH c Hc) (Z c Hc))). apply soon_impl. intros h Hh E w. cbn [SpeSpec.den]. apply sumR_zero. intros c Hc. rewrite E by auto. ring.
    - destruct As as (A1 & A2). pose proof (prod_wf dlaw l W) as Wc.
      assert (IH : forall c, In c l -> (forall L w, rect_ok L -> every (clear_of (map fst L) a') c -> lim0 (fun h => den c (rect (L ++ nears h (portion (vars c) a'))) w / (2 * h) ^ fst (dens_at a' c)) (snd (dens_at a' c) * op_at a' c (rect L) w)) /\
        (snd (dens_at a' c) = 0 -> soon (fun h => forall w, den c (rect (nears h (portion (vars c) a'))) w = 0))).
      { intros c Hc. unfold ConstrainProofs.dens_at, ConstrainProofs.op_at.
        assert (Emp : (forall L w, rect_ok L -> every (clear_of (map fst L) a') c -> lim0 (fun h => den c (rect (L ++ nears h [])) w / (2 * h) ^ fst (0%nat, 1)) (snd (0%nat, 1) * den c (rect L) w)) /\ (snd (0%nat, 1) = 0 -> soon (fun h => forall w, den c (rect (nears h [])) w = 0))).
        { cbn [fst snd]. split; [|intros; lra]. intros L w HL Cl. change (nears ?h []) with (@nil (string * (fval -> R))). rewrite app_nil_r, Rmult_1_l. apply (lim0_ext _ (fun _ => den c (rect L) w)); [intros h Hh; cbn [pow]; field|apply lim0_const]. }
        destruct (All_In _ _ _ _ A2 Hc) as [K|K]; [rewrite K; exact Emp|]. destruct (portion (vars c) a') as [|p b] eqn:Ep; [exact Emp|]. rewrite <- Ep in *.
        destruct (H c Hc (Wc c Hc) _ K) as (I1 & I2); [now apply finite_portion|eapply every_prod; eauto|apply smooth_portion; eapply every_prod; eauto|]. split; auto. intros L w HL Cl. apply I1; auto. eapply clear_portion; eauto. }
      rewrite prod_density_eq, pprod_fst, pprod_snd, !map_map. fold (prodR (map (fun c => snd (dens_at a' c)) l)).
      assert (Out : forall h L w, rect (outside (pvars l) (L ++ nears h a')) w = rect (outside (pvars l) L) w).
      { intros h L w. rewrite outside_app, rect_app. rewrite (outside_none _ (pvars l) (nears h a')); [unfold rect at 2; cbn; ring|]. intros p Hp. unfold nears in Hp. apply in_map_iff in Hp. destruct Hp as (q & <- & Hq). exact (A1 q Hq). }
      split.
      + intros L w HL Cl. rewrite fixed_prod_rect by auto. rewrite <- Rmult_assoc, <- prodR_mult.
        apply (lim0_ext _ (fun h => prodR (map (fun c => den c (rect (inside (vars c) L ++ nears h (portion (vars c) a'))) w / (2 * h) ^ fst (dens_at a' c)) l) * rect (outside (pvars l) L) w)).
        { intros h Hh. rewrite prod_den_rect by auto using rect_ok_app, nears_ok. rewrite Out.
          rewrite <- (lim0_prod_pow _ l (fun c h => den c (rect (inside (vars c) L ++ nears h (portion (vars c) a'))) w) (fun c => fst (dens_at a' c)) h Hh).
          rewrite (prodR_ext _ (fun c => den c (rect (inside (vars c) (L ++ nears h a'))) w) (fun c => den c (rect (inside (vars c) L ++ nears h (portion (vars c) a'))) w)); [unfold Rdiv; ring|]. intros c Hc. now rewrite inside_app, nears_inside. }
        apply (lim0_mult (fun h => prodR (map (fun c => den c (rect (inside (vars c) L ++ nears h (portion (vars c) a'))) w / (2 * h) ^ fst (dens_at a' c)) l)) (fun _ => rect (outside (pvars l) L) w)); [|apply lim0_const].
        apply (lim0_prod _ l (fun c h => den c (rect (inside (vars c) L ++ nears h (portion (vars c) a'))) w / (2 * h) ^ fst (dens_at a' c))). intros c Hc. apply (IH c Hc); auto using rect_ok_inside.
        apply (every_impl (clear_of (map fst L) a')); [|eapply every_prod; eauto]. intros t Ht. destruct t; cbn [clear_of] in *; auto; intros K y Hy; apply Ht; auto; apply in_map_iff in Hy; destruct Hy as (p & <- & Hp); apply inside_in in Hp; apply in_map, Hp.
      + intros Z. assert (exists c, In c l /\ snd (dens_at a' c) = 0) as (c & Hc & Zc).
        { clear -Z. induction l as [|c l IHl]; [cbn in Z; lra|]. cbn [map] in Z. change (prodR (?a :: ?l)) with (a * prodR l) in Z. apply Rmult_integral in Z. destruct Z as [Z|Z]; [exists c; split; auto; now left|]. destruct (IHl Z) as (d & Hd & E). exists d. split; auto. now right. }
        generalize (proj2 (IH c Hc) Zc). apply soon_impl. intros h Hh E w. change (rect (nears h a')) with (rect ([] ++ nears h a')). rewrite prod_den_rect by (auto using rect_ok_app, nears_ok; apply nears_ok). 
        assert (Zp : prodR (map (fun c => den c (rect (inside (vars c) ([] ++ nears h a'))) w) l) = 0); [|rewrite Zp; ring].
        assert (E' : den c (rect (inside (vars c) ([] ++ nears h a'))) w = 0) by (rewrite inside_app, nears_inside; apply E). clear -Hc E'. induction l as [|d l IHl]; [destruct Hc|]. cbn [map]. change (prodR (?a :: ?l)) with (a * prodR l). destruct Hc as [->|Hc]; [rewrite E'; ring|rewrite IHl by auto; ring].
  Qed.
End Point.
