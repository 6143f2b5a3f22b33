(** Property C05, continued: exactly which intersections with a union are computed
    (src/sets.py:320-336, Union.__and__).  A union keeps at most one finite set of numbers
    (src/sets.py:288-291), so an intersection that leaves isolated points in two different
    parts cannot be represented.
    Vocabulary: SetSpec.v, and [isolated b c]: the parts [b] and [c] meet, and only in
    finitely many points. *)
From Coq Require Import List Bool String Permutation ZArith Reals Lra Lia.
From Verif Require Import Base Num Sets SetSpec SetIv SetProofs SetOr SetOps SetAlg SetBuilt PropSets.
Import ListNotations.

Section Exact.
  Context {N : numsys} (io : iterorder N).
  Notation enum := (ext (num N)).
  Implicit Types (b c : bset N) (u w : list (bset N)).

  (** ** Specification *)
  Definition isolated b c : Prop :=
    (exists v, bmem v b /\ bmem v c) /\
    (exists l : list rval, forall v, bmem v b -> bmem v c -> In v l).

  (** ** Proofs *)

  (** an open range of reals is never exhausted by a list *)
  Lemma range_avoids : forall (l : list rval) lo hi, (lo < hi)%R ->
    exists lo' hi', (lo <= lo' /\ lo' < hi' /\ hi' <= hi)%R /\
      forall r, (lo' < r < hi')%R -> ~ In (RNum (Fin r)) l.
  Proof.
    induction l as [|v l IH]; intros lo hi H.
    - exists lo, hi. split; [lra|]. intros r _ [].
    - destruct (IH lo hi H) as (a & b & B & A).
      assert (C : (exists x, v = RNum (Fin x) /\ (a < x < b)%R) \/ forall r, (a < r < b)%R -> v <> RNum (Fin r)).
      { destruct v as [[|x|]|s]; try (right; intros r _ E; discriminate).
        destruct (Rlt_dec a x) as [G|G]; [destruct (Rlt_dec x b) as [G2|G2]|].
        - left. exists x. auto.
        - right. intros r Hr E. injection E as E. lra.
        - right. intros r Hr E. injection E as E. lra. }
      destruct C as [(x & -> & Hx)|C].
      + exists a, x. split; [lra|]. intros r Hr [E|E].
        * injection E as E. lra.
        * apply (A r); auto. lra.
      + exists a, b. split; auto. intros r Hr [E|E]; [now apply (C r)|now apply (A r)].
  Qed.

  Lemma above : forall (e : ext R) x, elt (Fin x) e -> exists y, (x < y)%R /\ forall r, (r < y)%R -> elt (Fin r) e.
  Proof.
    intros [|z|] x H; simpl in H; [tauto|exists z|exists (x + 1)%R]; split; auto; lra.
  Qed.
  Lemma below : forall (e : ext R) x, elt e (Fin x) -> exists y, (y < x)%R /\ forall r, (y < r)%R -> elt e (Fin r).
  Proof.
    intros [|z|] x H; simpl in H; [exists (x - 1)%R|exists z|tauto]; split; auto; lra.
  Qed.

  Lemma below_trans : forall (e : ext R) x r, (r < x)%R -> ele (Fin x) e -> elt (Fin r) e.
  Proof. intros [|z|] x r H [G|G]; simpl in *; try discriminate; try tauto; [lra|]. injection G as ->. exact H. Qed.
  Lemma above_trans : forall (e : ext R) x r, (x < r)%R -> ele e (Fin x) -> elt e (Fin r).
  Proof. intros [|z|] x r H [G|G]; simpl in *; try discriminate; try tauto; [lra|]. injection G as ->. exact H. Qed.

  Lemma iv_infinite : forall (i : interval N) (l : list rval), wf_iv i -> exists v, bmem v (BInt i) /\ ~ In v l.
  Proof.
    intros [a b lo ro] l (H & Ha & Hb). simpl in *.
    assert (E : exists x y, (x < y)%R /\ forall r, (x < r < y)%R -> elt (eR a) (Fin r) /\ elt (Fin r) (eR b)).
    { destruct a as [|a|], b as [|b|]; simpl in *; try tauto.
      - exists (toR b - 1)%R, (toR b). split; [lra|]. intros r Hr. split; auto; lra.
      - exists 0%R, 1%R. split; [lra|]. auto.
      - exists (toR a), (toR b). split; auto.
      - exists (toR a), (toR a + 1)%R. split; [lra|]. intros r Hr. split; auto; lra. }
    destruct E as (x & y & L & E).
    destruct (range_avoids l x y L) as (x' & y' & B & A).
    exists (RNum (Fin ((x' + y') / 2)%R)). split; [|apply A; lra].
    destruct (E ((x' + y') / 2)%R) as (E1 & E2); [lra|].
    unfold bmem, iv_mem; simpl. split; [destruct lo|destruct ro]; auto; now left.
  Qed.

  (** what the intersection of two parts looks like *)
  Definition points (s : pset N) : bool := match s with PB (BReal _) => true | _ => false end.

  Lemma points_iff : forall b c r, wf_b b -> wf_b c -> real_b c -> and_bb b c = Ok r ->
    (points r = true <-> isolated b c).
  Proof.
    intros b c r Wb Wc Rc E.
    destruct (and_bb_ok b c Wb Wc) as (r' & E' & (W & M & R) & NU). rewrite E in E'. injection E' as <-.
    assert (Rr : real_set r) by (apply R; right; exact Rc).
    destruct r as [|[vs f|vs|i]|]; [|now destruct Rr| | |now destruct NU]; simpl.
    - split; [discriminate|]. intros ((v & Hv) & _). exfalso. exact (proj2 (M v) Hv).
    - split; auto. intros _. split.
      + destruct (b_inhabited (BReal vs) W) as (v & Hv). exists v. now apply (M v).
      + exists (map (fun y => RNum (eR y)) vs). intros v H1 H2.
        assert (H : mem v (PB (BReal vs))) by (apply M; auto).
        destruct v as [x|s]; [|now destruct H]. destruct H as (y & Hy & <-).
        apply in_map_iff. eauto.
    - split; [discriminate|]. intros (_ & l & Hl). exfalso.
      destruct (iv_infinite i l W) as (v & Hv & Nv). apply Nv. apply (M v) in Hv. now apply Hl.
  Qed.

  Lemma pieces_NoDup : forall u, pieces_ok u -> NoDup u.
  Proof.
    intros u (W & _ & _ & D). induction D as [|b u H D IH]; constructor.
    - intros Hb. inversion W; subst. rewrite Forall_forall in H.
      destruct (b_inhabited b) as (v & Hv); auto. exact (H b Hb v Hv Hv).
    - inversion W; auto.
  Qed.

  (** counting the parts that leave isolated points *)
  Lemma count_points : forall R : list (pset N),
    List.length (filter is_real (flat_map opt_list R)) = List.length (filter points R).
  Proof. intros R. induction R as [|[|[]|] R IH]; simpl; auto. Qed.

  Lemma points_nonempty : forall R : list (pset N),
    filter points (filter (fun s => negb (is_empty s)) R) = filter points R.
  Proof. intros R. induction R as [|[|[]|] R IH]; simpl; congruence. Qed.

  Lemma at_most_one : forall c L R, wf_b c -> real_b c -> Forall wf_b L -> NoDup L ->
    Forall2 (fun b r => and_bb b c = Ok r) L R ->
    ((List.length (filter points R) <= 1)%nat <->
     (forall b b', In b L -> In b' L -> isolated b c -> isolated b' c -> b = b')).
  Proof.
    intros c L R Wc Rc W ND F. induction F as [|b r L R E F IH].
    - simpl. split; [intros _ b b' []|lia].
    - inversion W; subst. inversion ND; subst. specialize (IH H2 H4).
      assert (X : forall b', In b' L -> isolated b' c -> filter points R <> []).
      { clear IH ND W H3 H4. intros b' Hb' I. induction F as [|b0 r0 L R E0 F IHF]; [destruct Hb'|].
        inversion H2; subst. simpl. destruct Hb' as [->|Hb'].
        - rewrite (proj2 (points_iff b' c r0 H3 Wc Rc E0) I). discriminate.
        - destruct (points r0); [discriminate|auto]. }
      assert (Y : filter points R <> [] -> exists b', In b' L /\ isolated b' c).
      { clear IH ND W H3 H4 X. intros NE. induction F as [|b0 r0 L R E0 F IHF]; [now destruct NE|].
        inversion H2; subst. simpl in NE. destruct (points r0) eqn:P.
        - exists b0. split; [now left|]. now apply (points_iff b0 c r0).
        - destruct (IHF H4 NE) as (b' & H5 & H6). exists b'. split; [now right|exact H6]. }
      simpl. destruct (points r) eqn:P; simpl.
      + apply (points_iff b c r H1 Wc Rc E) in P. split.
        * intros L1. assert (Z : filter points R = []) by (destruct (filter points R); [reflexivity|simpl in L1; lia]).
          intros b1 b2 [<-|B1] [<-|B2] I1 I2; auto; exfalso; eapply X; eauto.
        * intros Q. destruct (filter points R) as [|r1 R1] eqn:Z; [simpl; lia|]. exfalso.
          destruct Y as (b' & Hb' & I); [discriminate|].
          apply H3. rewrite (Q b b'); auto.
      + assert (NI : ~ isolated b c).
        { intros I. apply (points_iff b c r H1 Wc Rc E) in I. congruence. }
        rewrite IH. split.
        * intros Q b1 b2 [<-|B1] [<-|B2] I1 I2; auto; tauto.
        * intros Q b1 b2 B1 B2. apply Q; auto.
  Qed.

  Lemma Forall2_mapM : forall c l R, mapM (fun i => and_bb (BInt i) c) l = Ok R ->
    Forall2 (fun b r => and_bb b c = Ok r) (map BInt l) R.
  Proof.
    intros c. induction l as [|i l IH]; intros R H; simpl in H.
    - injection H as <-. constructor.
    - inv_bind H. inv_bind H. injection H as <-. simpl. constructor; auto.
  Qed.

  Lemma nominal_apart : forall vs f c, real_b c -> ~ isolated (BNom vs f) c.
  Proof. intros vs f c Rc (([x|s] & H1 & H2) & _); [exact H1|]. destruct c; simpl in *; tauto. Qed.

  (** an interval that meets an open one shares a range with it *)
  Lemma overlap : forall j i : interval N, wf_iv j -> iv_lo i = true -> iv_ro i = true -> ~ isolated (BInt j) (BInt i).
  Proof.
    intros j i WF Lo Ro I. destruct I as ((v & V1 & V2) & l & Hl).
    destruct v as [x|s]; [|exact V1]. simpl in V1, V2.
    destruct V1 as (A1 & B1), V2 as (A2 & B2). rewrite Lo in A2. rewrite Ro in B2.
    destruct x as [|x|]; [destruct (eR (iv_a i)); destruct A2| |destruct (eR (iv_b i)); destruct B2].
    assert (A1' : ele (eR (iv_a j)) (Fin x)) by (destruct (iv_lo j); [now left|exact A1]).
    assert (B1' : ele (Fin x) (eR (iv_b j))) by (destruct (iv_ro j); [now left|exact B1]).
    assert (S : elt (eR (iv_a j)) (Fin x) \/ elt (Fin x) (eR (iv_b j))).
    { destruct A1' as [?|Ea]; auto. destruct B1' as [?|Eb]; auto. exfalso.
      destruct WF as (WF & _). rewrite Ea, <- Eb in WF. simpl in WF. lra. }
    assert (Q : exists lo hi, (lo < hi)%R /\ forall r, (lo < r < hi)%R ->
      elt (eR (iv_a j)) (Fin r) /\ elt (Fin r) (eR (iv_b j)) /\ elt (eR (iv_a i)) (Fin r) /\ elt (Fin r) (eR (iv_b i))).
    { destruct S as [S|S].
      - destruct (below (eR (iv_a j)) x S) as (y & Y1 & Y2). destruct (below (eR (iv_a i)) x A2) as (z & Z1 & Z2).
        exists (Rmax y z), x. split; [now apply Rmax_lub_lt|]. intros r Hr.
        pose proof (Rmax_l y z). pose proof (Rmax_r y z).
        split; [apply Y2; lra|]. split; [|split; [apply Z2; lra|]].
        + now apply (below_trans _ x); [lra|].
        + apply (below_trans _ x); [lra|now left].
      - destruct (above (eR (iv_b j)) x S) as (y & Y1 & Y2). destruct (above (eR (iv_b i)) x B2) as (z & Z1 & Z2).
        exists x, (Rmin y z). split; [now apply Rmin_glb_lt|]. intros r Hr.
        pose proof (Rmin_l y z). pose proof (Rmin_r y z).
        split; [|split; [apply Y2; lra|split; [|apply Z2; lra]]].
        + now apply (above_trans _ x); [lra|].
        + apply (above_trans _ x); [lra|now left]. }
    destruct Q as (lo & hi & L & Q). destruct (range_avoids l lo hi L) as (lo' & hi' & Bd & Av).
    destruct (Q ((lo' + hi') / 2)%R) as (Q1 & Q2 & Q3 & Q4); [lra|].
    apply (Av ((lo' + hi') / 2)%R); [lra|]. apply Hl; unfold bmem, iv_mem.
    + split; [destruct (iv_lo j)|destruct (iv_ro j)]; auto; now left.
    + rewrite Lo, Ro. auto.
  Qed.

  Lemma numbers_perm : forall u, pieces_ok u ->
    Permutation (filter is_real u ++ map BInt (ivs u)) (opt_list (u_atoms u) ++ map BInt (u_intervals io u)).
  Proof.
    intros u P. unfold u_atoms. rewrite filter_le1 by apply P.
    apply Permutation_app_head, Permutation_map. now apply u_intervals_perm.
  Qed.

  Lemma and_ub_exactly : forall u c, pieces_ok u -> wf_b c -> real_b c ->
    ((exists r, and_ub io u c = Ok r) <->
     (forall b b', In b u -> In b' u -> isolated b c -> isolated b' c -> b = b')).
  Proof.
    intros u c P Wc Rc. rewrite (and_ub_real io u c Rc). unfold and_ub_body.
    destruct (u_atoms_wf u P) as (Wa & Na). destruct (u_intervals_wf io u P) as (Wi & Di).
    destruct (and_pb_ok (u_atoms u) c Wa Na Wc) as (ra & Ea & (A & B & C) & Nra).
    destruct (map_and_iv c (u_intervals io u) Wc Wi Di) as (is & Ei & Nu & Wv & Lv & Dv & Rv & Mv).
    rewrite Ea. cbn [bind]. rewrite Ei. cbn [bind].
    set (ne := filter (fun s => negb (is_empty s)) is) in *.
    assert (Rra : real_set ra) by (apply C; right; exact Rc).
    set (L := opt_list (u_atoms u) ++ map BInt (u_intervals io u)).
    pose proof (numbers_perm u P) as PL. fold L in PL.
    assert (IL : forall b, In b L -> In b u).
    { intros b Hb. eapply Permutation_in in Hb; [|symmetry; exact PL].
      eapply Permutation_in; [symmetry; apply partition_perm|]. apply in_or_app. now right. }
    assert (LI : forall b, In b u -> real_b b -> In b L).
    { intros b Hb Rb. eapply Permutation_in; [exact PL|]. apply in_or_app.
      destruct b as [vs f|vs|i]; [now destruct Rb|left|right].
      - apply filter_In. auto.
      - apply in_map. now apply ivs_In. }
    assert (ND : NoDup L).
    { eapply Permutation_NoDup; [exact PL|].
      pose proof (pieces_NoDup u P) as D. eapply Permutation_NoDup in D; [|apply partition_perm].
      revert D. generalize (filter is_real u ++ map BInt (ivs u)). generalize (filter is_nom u).
      induction l as [|x l IH]; simpl; auto. intros l0 D. inversion D; auto. }
    assert (WL : Forall wf_b L).
    { apply Forall_forall. intros b Hb. destruct P as (P & _). rewrite Forall_forall in P. auto. }
    assert (CL : exists R, Forall2 (fun b r => and_bb b c = Ok r) L R /\
      List.length (filter points R) = List.length (filter is_real (flat_map opt_list (ra :: ne)))).
    { pose proof (Forall2_mapM _ _ _ Ei) as F. unfold L.
      assert (K : List.length (filter points (ra :: is)) = List.length (filter is_real (flat_map opt_list (ra :: ne)))).
      { rewrite count_points. simpl. unfold ne. now rewrite points_nonempty. }
      destruct (u_atoms_cases u P) as [Eat|(ws & Eat & _)]; rewrite Eat in Ea |- *; cbn [and_pb] in Ea; cbn [opt_list app].
      - exists is. split; auto. rewrite <- K. injection Ea as <-. reflexivity.
      - exists (ra :: is). split; [constructor; auto|exact K]. }
    destruct CL as (R & FR & CR).
    pose proof (at_most_one c L R Wc Rc WL ND FR) as AM. rewrite CR in AM.
    assert (EQ : (forall b b', In b L -> In b' L -> isolated b c -> isolated b' c -> b = b') <->
                 (forall b b', In b u -> In b' u -> isolated b c -> isolated b' c -> b = b')).
    { split; intros Q b b' Hb Hb' I I'; apply Q; auto.
      - apply LI; auto. destruct b; simpl; auto. now apply nominal_apart in I.
      - apply LI; auto. destruct b'; simpl; auto. now apply nominal_apart in I'. }
    rewrite <- EQ, <- AM.
    assert (NN : forall b, In b (flat_map opt_list (ra :: ne)) -> is_nom b = false).
    { intros b Hb. assert (Rb : real_b b).
      { simpl in Hb. apply in_app_or in Hb. destruct Hb as [Hb|Hb].
        - destruct ra as [|ba|]; simpl in Hb; [tauto| |tauto]. destruct Hb as [->|[]]. exact Rra.
        - rewrite Forall_forall in Rv. auto. }
      destruct b; [now destruct Rb|reflexivity..]. }
    assert (C1 : filter is_nom (flat_map opt_list (ra :: ne)) = []).
    { revert NN. generalize (flat_map opt_list (ra :: ne)). induction l as [|b l IH]; intros NN; simpl; auto.
      rewrite (NN b) by now left. apply IH. intros b' Hb'. apply NN. now right. }
    assert (PO : (List.length (filter is_real (flat_map opt_list (ra :: ne))) <= 1)%nat ->
                 pieces_ok (flat_map opt_list (ra :: ne))).
    { intros C2. unfold pieces_ok. rewrite C1. split; [|split; [simpl; lia|split; [exact C2|]]];
        simpl; destruct ra as [|ba|]; simpl; auto; try (now destruct Nra).
      apply FOP_cons. split; auto. apply Forall_forall. intros b' Hb' v Hv Hv'.
      apply (B v) in Hv. destruct Hv as (Hv1 & Hv2).
      assert (ML : mem_list v (flat_map opt_list ne)) by (exists b'; auto).
      apply Mv in ML. destruct ML as ((k' & Hk' & Hkv) & _).
      destruct (u_atoms_cases u P) as [Eat|(ws & Eat & _)]; rewrite Eat in Hv1; [exact Hv1|].
      exact (u_atoms_disjoint io u _ k' P Eat Hk' v Hv1 Hkv). }
    assert (U : (2 <= List.length (flat_map opt_list (ra :: ne)))%nat ->
      ((exists r, Union_ io (ra :: ne) = Ok r) <-> (List.length (filter is_real (flat_map opt_list (ra :: ne))) <= 1)%nat)).
    { intros L2. split.
      - intros (r & H). apply Union_inv in H. apply H.
      - intros C2. eexists. apply Union_ok; [reflexivity| |now apply PO|exact L2]. constructor; auto. }
    assert (S1 : (List.length (flat_map opt_list (ra :: ne)) <= 1)%nat ->
                 (List.length (filter is_real (flat_map opt_list (ra :: ne))) <= 1)%nat).
    { intros L1. etransitivity; [|exact L1]. generalize (flat_map opt_list (ra :: ne)).
      induction l as [|b l IH]; simpl; [lia|]. destruct (is_real b); simpl; lia. }
    assert (LE : List.length (flat_map opt_list (ra :: ne)) = ((if is_empty ra then 0 else 1) + List.length ne)%nat).
    { simpl. rewrite app_length, Lv. destruct ra as [|ba|]; simpl; auto. now destruct Nra. }
    destruct (is_empty ra) eqn:Er.
    - destruct ne as [|i0 [|i1 ne']] eqn:En.
      + split; [intros _; apply S1; rewrite LE; simpl; lia|intros _; eauto].
      + split; [intros _; apply S1; rewrite LE; simpl; lia|intros _; eauto].
      + apply U. rewrite LE. simpl. lia.
    - destruct ne as [|i0 ne'] eqn:En.
      + split; [intros _; apply S1; rewrite LE; simpl; lia|intros _; eauto].
      + apply U. rewrite LE. simpl. lia.
  Qed.

  (** ** C05 *)

  (** the intersection of a union with a basic set is returned exactly when at most one
      part of the union meets it in isolated points *)
  Theorem C05_intersection_exactly : forall u c, wf (PUnion u) -> wf_b c ->
    ((exists r, pand io (PUnion u) (PB c) = Ok r) <->
     (forall b b', In b u -> In b' u -> isolated b c -> isolated b' c -> b = b')).
  Proof.
    intros u c W Wc. apply wf_union_iff in W. destruct W as (P & _). simpl.
    destruct c as [vs f|vs|i].
    - split.
      + intros _ b b' Hb Hb' ((v & V1 & V2) & _) ((v' & V1' & V2') & _).
        destruct v as [x|s]; [destruct V2|]. destruct v' as [x|s']; [destruct V2'|].
        destruct b as [ws g|ws|i]; [|destruct V1..]. destruct b' as [ws' g'|ws'|i']; [|destruct V1'..].
        destruct P as (_ & C & _).
        assert (F : In (BNom ws g) (filter is_nom u)) by (apply filter_In; auto).
        assert (F' : In (BNom ws' g') (filter is_nom u)) by (apply filter_In; auto).
        destruct (filter is_nom u) as [|x [|y l]]; simpl in *; [tauto| |lia].
        destruct F as [<-|[]], F' as [<-|[]]. reflexivity.
      + intros _. destruct (u_nominals_wf u P) as (Wn & Nn).
        destruct (and_pb_ok (u_nominals u) (BNom vs f) Wn Nn Wc) as (r & E & _). exists r. exact E.
    - now apply and_ub_exactly.
    - now apply and_ub_exactly.
  Qed.

  (** the order of the operands does not matter *)
  Theorem C05_intersection_exactly_left : forall u c, wf (PUnion u) -> wf_b c ->
    ((exists r, pand io (PB c) (PUnion u) = Ok r) <->
     (forall b b', In b u -> In b' u -> isolated b c -> isolated b' c -> b = b')).
  Proof. exact C05_intersection_exactly. Qed.

  (** an open interval leaves no new isolated points: it can be intersected with any union *)
  Theorem C05_intersection_open_total : forall u i, wf (PUnion u) -> wf_b (BInt i) ->
    iv_lo i = true -> iv_ro i = true -> exists r, pand io (PUnion u) (PB (BInt i)) = Ok r.
  Proof.
    intros u i W Wi Lo Ro. apply C05_intersection_exactly; auto.
    apply wf_union_iff in W. destruct W as ((WF & _ & C & _) & _).
    assert (K : forall b, In b u -> isolated b (BInt i) -> is_real b = true).
    { intros b Hb I. rewrite Forall_forall in WF. specialize (WF b Hb). destruct b as [vs f|vs|j]; auto.
      - now apply nominal_apart in I.
      - exfalso. now apply (overlap j i). }
    intros b b' Hb Hb' I I'. apply K in I, I'; auto.
    assert (F : In b (filter is_real u)) by (apply filter_In; auto).
    assert (F' : In b' (filter is_real u)) by (apply filter_In; auto).
    destruct (filter is_real u) as [|x [|y l]]; simpl in *; [tauto| |lia].
    destruct F as [<-|[]], F' as [<-|[]]. reflexivity.
  Qed.

  (** two unions: every part of the second must be acceptable to the first *)
  Theorem C05_unions_exactly : forall u w, wf (PUnion u) -> wf (PUnion w) ->
    real_set (PUnion u) \/ real_set (PUnion w) ->
    ((exists r, pand io (PUnion u) (PUnion w) = Ok r) <->
     (forall b b' c, In b u -> In b' u -> In c w -> isolated b c -> isolated b' c -> b = b')).
  Proof.
    intros u w Wu Ww Rl.
    destruct (u_values_facts io w Ww) as (W1 & W2 & W3 & W4).
    pose proof (proj1 (wf_union_iff w) Ww) as (Pw & _).
    pose proof (u_values_perm io w Pw) as Q.
    split.
    - intros (r & H) b b' c Hb Hb' Hc I I'. simpl in H. inv_bind H.
      eapply Permutation_in in Hc; [|exact Q].
      assert (Wc : wf_b c) by (rewrite Forall_forall in W1; auto).
      refine (proj1 (C05_intersection_exactly u c Wu Wc) _ b b' Hb Hb' I I').
      simpl. apply mapM_Forall2 in E. clear -E Hc. induction E as [|d t l ts E _ IH]; [destruct Hc|].
      destruct Hc as [->|Hc]; eauto.
    - intros H.
      assert (T : exists ts, mapM (and_ub io u) (u_values io w) = Ok ts /\ Forall (fun t => wf t /\ real_set t) ts /\ List.length ts = List.length (u_values io w)).
      { assert (A : forall c, In c (u_values io w) -> exists t, and_ub io u c = Ok t /\ wf t /\ real_set t).
        { intros c Hc. assert (Wc : wf_b c) by (rewrite Forall_forall in W1; auto).
          destruct (proj2 (C05_intersection_exactly u c Wu Wc)) as (t & Ht).
          { intros b b' Hb Hb'. apply (H b b' c); auto. eapply Permutation_in; [symmetry; exact Q|exact Hc]. }
          exists t. split; [exact Ht|]. pose proof (pand_spec io (PUnion u) (PB c) t Wu Wc Ht) as Sp.
          split; [apply Sp|]. apply Sp. destruct Rl as [Rl|Rl]; [now left|right].
          specialize (W3 Rl). rewrite Forall_forall in W3. simpl. auto. }
        clear -A. induction (u_values io w) as [|c l IH]; [exists []; simpl; auto|].
        destruct (A c) as (t & Et & Wt & Rt); [now left|].
        destruct IH as (ts & E & F & L); [intros d Hd; apply A; now right|].
        exists (t :: ts). cbn [mapM]. rewrite Et. cbn [bind]. rewrite E. cbn [bind]. simpl. auto. }
      destruct T as (ts & E & F & L). simpl. rewrite E. cbn [bind].
      apply reduce_por_total.
      + intros ->. destruct (u_values io w); [now apply W4|discriminate].
      + eapply Forall_impl; [|exact F]. simpl. tauto.
      + eapply Forall_impl; [|exact F]. simpl. tauto.
  Qed.

  (** ** Complements *)

  (** parts that contain their finite ends *)
  Definition closed_part b : Prop :=
    match b with
    | BNom _ _ => False
    | BReal _ => True
    | BInt i => (iv_lo i = true -> iv_a i = NInf) /\ (iv_ro i = true -> iv_b i = PInf)
    end.

  Definition open_part b : Prop :=
    match b with BInt i => iv_lo i = true /\ iv_ro i = true | _ => False end.
  Definition open_set (s : pset N) : Prop :=
    match s with PEmpty => True | PB b => open_part b | PUnion u => Forall open_part u end.
  (** around every member there is a range of members *)
  Definition roomy (s : pset N) : Prop := forall v, mem v s ->
    exists x lo hi, v = RNum (Fin x) /\ (lo < x < hi)%R /\ forall r, (lo < r < hi)%R -> mem (RNum (Fin r)) s.

  Lemma Interval_flags : forall (a b : enum) lo ro (i : interval N), Interval_ a b lo ro = Ok i ->
    iv_lo i = (lo || is_ninf a)%bool /\ iv_ro i = (ro || is_pinf b)%bool.
  Proof. intros a b lo ro i H. unfold Interval_ in H. inv_bind H. injection H as <-. auto. Qed.

  Lemma inv_b_open : forall b s, closed_part b -> inv_b io b = Ok s -> open_set s.
  Proof.
    intros [vs f|vs|i] s C H; [destruct C| |]; simpl in H.
    - unfold inv_real in H. destruct (sort eleb vs) as [|x l]; [discriminate|].
      inv_bind H. inv_bind H. rename r into i, r0 into g. apply Union_inv in H. destruct H as (-> & _).
      assert (G : forall l x g, gaps x l = Ok g -> Forall (fun i : interval N => iv_lo i = true /\ iv_ro i = true) g).
      { clear. induction l as [|y l IH]; intros x g H; simpl in H.
        - inv_bind H. injection H as <-. apply Interval_flags in E. constructor; [apply E|constructor].
        - inv_bind H. inv_bind H. injection H as <-. apply Interval_flags in E. constructor; [apply E|eauto]. }
      assert (F : Forall (fun i : interval N => iv_lo i = true /\ iv_ro i = true) (i :: g)).
      { constructor; [|eauto]. apply Interval_flags in E. apply E. }
      cbn [open_set]. revert F. generalize (i :: g). clear. induction 1 as [|k l Hk _ IH]; simpl; [constructor|].
      constructor; auto.
    - destruct C as (Ca & Cb). unfold inv_iv in H.
      destruct (is_ninf (iv_a i)) eqn:Na; destruct (is_pinf (iv_b i)) eqn:Pb.
      + injection H as <-. exact I.
      + inv_bind H. injection H as <-. apply Interval_flags in E. simpl in E. destruct E as (E1 & E2).
        simpl. split; auto. rewrite E1. destruct (iv_ro i); auto. rewrite Cb in Pb; auto. discriminate.
      + inv_bind H. injection H as <-. apply Interval_flags in E. simpl in E. destruct E as (E1 & E2).
        simpl. split; auto. rewrite E2. destruct (iv_lo i); auto. rewrite Ca in Na; auto. discriminate.
      + inv_bind H. inv_bind H. apply Interval_flags in E. apply Interval_flags in E0.
        apply Union_inv in H. destruct H as (-> & _). simpl in *. destruct E as (E1 & E2), E0 as (E3 & E4).
        constructor; [|constructor; [|constructor]]; split; auto.
        * rewrite E2. destruct (iv_lo i); auto. rewrite Ca in Na; auto. discriminate.
        * rewrite E3. destruct (iv_ro i); auto. rewrite Cb in Pb; auto. discriminate.
  Qed.

  Lemma open_part_roomy : forall b, open_part b -> roomy (PB b).
  Proof.
    intros [vs f|vs|i] O v Hv; [destruct O..|]. destruct O as (Lo & Ro).
    destruct v as [x|str]; [|destruct Hv]. simpl in Hv. unfold iv_mem in Hv. rewrite Lo, Ro in Hv.
    destruct Hv as (A & B).
    destruct x as [|x|]; [destruct (eR (iv_a i)); destruct A| |destruct (eR (iv_b i)); destruct B].
    destruct (below _ x A) as (y & Y1 & Y2). destruct (above _ x B) as (z & Z1 & Z2).
    exists x, y, z. split; [reflexivity|]. split; [auto|]. intros r Hr. simpl. unfold iv_mem. rewrite Lo, Ro.
    split; [apply Y2|apply Z2]; lra.
  Qed.
  Lemma open_set_roomy : forall s, open_set s -> roomy s.
  Proof.
    intros [|b|u] O.
    - intros v [].
    - now apply open_part_roomy.
    - intros v (b & Hb & Hv). simpl in O. rewrite Forall_forall in O.
      destruct (open_part_roomy b (O b Hb) v Hv) as (x & lo & hi & E & B & M).
      exists x, lo, hi. split; auto. split; auto. intros r Hr. exists b. split; auto. exact (M r Hr).
  Qed.
  Lemma roomy_and : forall s t r, wf s -> wf t -> roomy s -> roomy t -> pand io s t = Ok r -> roomy r.
  Proof.
    intros s t r Ws Wt Rs Rt H v Hv. destruct (pand_spec io s t r Ws Wt H) as (_ & A & B & _).
    destruct (A v Hv) as (V1 & V2).
    destruct (Rs v V1) as (x & a & b & -> & B1 & M1). destruct (Rt _ V2) as (x' & c & d & E & B2 & M2).
    injection E as <-. exists x, (Rmax a c), (Rmin b d). split; auto.
    split; [split; [now apply Rmax_lub_lt|now apply Rmin_glb_lt]|].
    intros y Hy. pose proof (Rmax_l a c). pose proof (Rmax_r a c). pose proof (Rmin_l b d). pose proof (Rmin_r b d).
    apply B; [exact I|apply M1; lra|apply M2; lra].
  Qed.
  Lemma roomy_real : forall vs, wf_b (BReal vs) -> ~ roomy (PB (BReal vs)).
  Proof.
    intros vs W H. destruct (b_inhabited (BReal vs) W) as (v & Hv).
    destruct (H v Hv) as (x & lo & hi & _ & B & M).
    destruct (range_avoids (map (fun y => RNum (eR y)) vs) lo hi) as (a & b & Bd & Av); [lra|].
    apply (Av ((a + b) / 2)%R); [lra|].
    destruct (M ((a + b) / 2)%R) as (y & Hy & E); [lra|]. apply in_map_iff. exists y. rewrite E. auto.
  Qed.
  Lemma isolated_sym : forall b c, isolated b c -> isolated c b.
  Proof. intros b c ((v & V1 & V2) & l & Hl). split; eauto. Qed.

  Lemma pand_open : forall s t, wf s -> wf t -> roomy s -> open_set t -> exists r, pand io s t = Ok r.
  Proof.
    intros s t Ws Wt Rs Ot.
    destruct s as [|b|u]; [simpl; eauto| |].
    - destruct t as [|c|w]; [simpl; eauto| |].
      + destruct (and_bb_ok b c Ws Wt) as (r & E & _). exists r. exact E.
      + apply C05_intersection_exactly_left; auto.
        assert (K : forall c, In c w -> ~ isolated c b).
        { intros c Hc I. simpl in Ot. rewrite Forall_forall in Ot. specialize (Ot c Hc).
          destruct c as [vs f|vs|i]; [destruct Ot..|]. destruct Ot as (Lo & Ro). apply isolated_sym in I.
          destruct b as [vs f|vs|j].
          - now apply nominal_apart in I.
          - now apply (roomy_real vs).
          - now apply (overlap j i). }
        intros c c' Hc _ I. now apply K in I.
    - destruct t as [|c|w]; [simpl; eauto| |].
      + destruct c as [vs f|vs|i]; [destruct Ot..|]. destruct Ot. now apply C05_intersection_open_total.
      + apply C05_unions_exactly; auto.
        * right. simpl in *. eapply Forall_impl; [|exact Ot]. intros [| |]; simpl; tauto.
        * intros b b' c Hb Hb' Hc. simpl in Ot. rewrite Forall_forall in Ot. specialize (Ot c Hc).
          assert (Wc : wf_b c) by (destruct Wt as (Wt & _); rewrite Forall_forall in Wt; auto).
          apply (C05_intersection_exactly u c); auto.
          destruct c as [vs f|vs|i]; [destruct Ot..|]. destruct Ot. now apply C05_intersection_open_total.
  Qed.

  Lemma fold_open : forall l s, wf s -> roomy s -> Forall (fun t => wf t /\ open_set t) l ->
    exists r, foldM (pand io) l s = Ok r.
  Proof.
    induction l as [|t l IH]; intros s Ws Rs F; simpl; [eauto|].
    inversion F as [|? ? (Wt & Ot) F']; subst. destruct (pand_open s t Ws Wt Rs Ot) as (r & E). rewrite E. simpl.
    apply IH; auto.
    - destruct (pand_spec io s t r Ws Wt E) as (W & _). exact W.
    - eapply roomy_and; [exact Ws|exact Wt|exact Rs|now apply open_set_roomy|exact E].
  Qed.

  (** the complement of a union of parts that contain their ends is returned exactly when
      the union has no infinite points *)
  Theorem C05_closed_complement_exactly : forall u, wf (PUnion u) -> Forall closed_part u ->
    ((exists r, pinv io (PUnion u) = Ok r) <->
     (forall vs x, In (BReal vs) u -> In x vs -> exists a, x = Fin a)).
  Proof.
    intros u W C.
    destruct (u_values_facts io u W) as (W1 & _ & W3 & W4).
    assert (Ru : Forall real_b u) by (eapply Forall_impl; [|exact C]; intros [| |]; simpl; tauto).
    specialize (W3 Ru). pose proof (proj1 (wf_union_iff u) W) as (P & _). pose proof (u_values_perm io u P) as Q.
    assert (C' : Forall closed_part (u_values io u)) by (eapply Permutation_Forall; [exact Q|exact C]).
    split.
    - intros (r & H) vs x Hvs Hx. simpl in H. inv_bind H. apply mapM_Forall2 in E.
      eapply Permutation_in in Hvs; [|exact Q].
      assert (Wv : wf_b (BReal vs)) by (rewrite Forall_forall in W1; auto).
      assert (T : exists s, inv_b io (BReal vs) = Ok s).
      { clear -E Hvs. induction E as [|b s l l' E _ IH]; [destruct Hvs|]. destruct Hvs as [->|Hvs]; eauto. }
      exact (proj1 (C05_finite_complement_total_iff io vs Wv) T x Hx).
    - intros F.
      assert (T : exists ts, mapM (inv_b io) (u_values io u) = Ok ts /\
        Forall2 (fun b t => inv_b io b = Ok t) (u_values io u) ts).
      { assert (A : forall b, In b (u_values io u) -> exists t, inv_b io b = Ok t).
        { intros b Hb. assert (Wb : wf_b b) by (rewrite Forall_forall in W1; auto).
          assert (Rb : real_b b) by (rewrite Forall_forall in W3; auto).
          destruct b as [vs f|vs|i]; [destruct Rb| |].
          - apply (proj2 (C05_finite_complement_total_iff io vs Wb)).
            intros x Hx. apply (F vs x); auto. eapply Permutation_in; [symmetry; exact Q|exact Hb].
          - apply (C05_interval_complement_total io i Wb). }
        clear -A. induction (u_values io u) as [|b l IH]; [exists []; simpl; auto|].
        destruct (A b) as (t & Et); [now left|].
        destruct IH as (ts & E & F); [intros d Hd; apply A; now right|].
        exists (t :: ts). cbn [mapM]. rewrite Et. cbn [bind]. rewrite E. cbn [bind]. auto. }
      destruct T as (ts & E & F2). unfold pinv. rewrite E. cbn [bind].
      assert (G : Forall (fun t => wf t /\ open_set t) ts).
      { clear -F2 W1 W3 C'. induction F2 as [|b t l ts E _ IH]; constructor;
          inversion W1; inversion W3; inversion C'; subst; auto.
        split; [|now apply (inv_b_open b)]. destruct (inv_b_ok io b t) as (Wt & _); auto. }
      destruct ts as [|t ts].
      + inversion F2 as [K|]. symmetry in K. destruct (W4 K).
      + inversion G as [|? ? (Wt & Ot) G']; subst. apply fold_open; auto. now apply open_set_roomy.
  Qed.
End Exact.
