(** Sets that a program can build, membership tests, equality and hashing. *)
From Coq Require Import List Bool String Permutation ZArith Reals QArith Lra Lia.
From Verif Require Import Base Num Sets SetSpec SetIv SetProofs SetIvOr SetOr SetOps SetAlg.
Import ListNotations.
Local Open Scope R_scope.

(** Every set reachable through the public constructors and operators. *)
Inductive built {N : numsys} (io : iterorder N) : pset N -> Prop :=
| built_empty : built io PEmpty
| built_interval : forall a b lo ro i, Interval_ a b lo ro = Ok i -> built io (PB (BInt i))
| built_real : forall vs s, FiniteReal vs = Ok s -> built io s
| built_nominal : forall vs b s, FiniteNominal vs b = Ok s -> built io s
| built_range : forall a b i, Range a b = Ok i -> built io (PB (BInt i))
| built_extreals : built io ExtReals
| built_extrealspos : built io ExtRealsPos
| built_and : forall s t r, built io s -> built io t -> pand io s t = Ok r -> built io r
| built_or : forall s t r, built io s -> built io t -> por io s t = Ok r -> built io r
| built_inv : forall s r, built io s -> pinv io s = Ok r -> built io r.

(** Python's hash on the tuples built by __hash__ (src/sets.py:38-40, 94-96, 164-166,
    259-261, 310-312): an arbitrary function that respects == of the tuple's parts.
    For a frozenset this means: independent of order, and a function of the hashes of
    the elements. *)
Record pyhash (N : numsys) := {
  h_empty : Z;
  h_nom : list string -> pyflag -> Z;
  h_nom_ok : forall vs ws b, (forall x, In x vs <-> In x ws) -> h_nom vs b = h_nom ws b;
  h_real : list (ext (num N)) -> Z;
  h_real_ok : forall vs ws, (forall x, In x (map eR vs) <-> In x (map eR ws)) -> h_real vs = h_real ws;
  h_int : ext (num N) -> ext (num N) -> bool -> bool -> Z;
  h_int_ok : forall a b a' b' lo ro, eR a = eR a' -> eR b = eR b' -> h_int a b lo ro = h_int a' b' lo ro;
  h_union : list Z -> Z;
  h_union_ok : forall l l', Permutation l l' -> h_union l = h_union l'
}.
Arguments h_empty {_} _.
Arguments h_nom {_} _ _ _.
Arguments h_real {_} _ _.
Arguments h_int {_} _ _ _ _ _.
Arguments h_union {_} _ _.

Section Hash.
  Context {N : numsys} (io : iterorder N) (H : pyhash N).
  Definition bhash (b : bset N) : Z :=
    match b with
    | BNom vs f => h_nom H vs f
    | BReal vs => h_real H vs
    | BInt i => h_int H (iv_a i) (iv_b i) (iv_lo i) (iv_ro i)
    end.
  (** src/sets.py hash(S) *)
  Definition phash (s : pset N) : Z :=
    match s with
    | PEmpty => h_empty H
    | PB b => bhash b
    | PUnion u => h_union H (map bhash (u_values io u))
    end.
End Hash.

Section Proofs.
  Context {N : numsys} (io : iterorder N).
  Notation enum := (ext (num N)).
  Implicit Types (s t r : pset N) (u w : list (bset N)).

  Lemma FiniteReal_wf : forall (vs : list enum) s, FiniteReal vs = Ok s -> wf s.
  Proof.
    intros vs s H. unfold FiniteReal in H. destruct vs as [|x vs]; [discriminate|].
    cbn [is_nil negb passert bind] in H.
    pose proof (dedup_num_NoDup (x :: vs)) as ND. pose proof (dedup_num_In (x :: vs) (eR x)) as Q.
    set (l := dedup eeqb (x :: vs)) in *. clearbody l. injection H as <-.
    split; [exact ND|]. intros E. rewrite E in Q. simpl in Q. tauto.
  Qed.
  Lemma FiniteNominal_wf : forall vs b s, FiniteNominal (N:=N) vs b = Ok s -> wf s.
  Proof.
    intros vs b s H. unfold FiniteNominal in H.
    destruct (negb (is_nil vs) || truthy b) eqn:E; [|discriminate]. cbn [passert bind] in H.
    pose proof (dedup_string_NoDup vs) as ND. pose proof (dedup_string_In vs) as Q.
    set (l := dedup String.eqb vs) in *. clearbody l. injection H as <-.
    split; [exact ND|]. apply orb_true_iff in E. destruct E as [E|E]; auto.
    left. destruct vs as [|x vs]; [discriminate|]. intros E'.
    specialize (Q x). rewrite E' in Q. simpl in Q. tauto.
  Qed.
  Lemma Interval_wf : forall a b lo ro (i : interval N), Interval_ a b lo ro = Ok i -> wf_iv i.
  Proof.
    intros a b lo ro i H. pose proof H as H'. rewrite Interval_R in H'.
    destruct (Rlt_dec _ _) as [L|]; [|discriminate].
    destruct (Interval_ok a b lo ro L) as (j & E & _ & _ & _ & _ & W). rewrite H in E.
    injection E as <-. exact W.
  Qed.
  Lemma Range_wf : forall a b (i : interval N), Range a b = Ok i -> wf_iv i.
  Proof.
    intros a b i H. unfold Range in H. inv_bind H. inv_bind H. inv_bind H. inv_bind H.
    now apply Interval_wf in H.
  Qed.

  Lemma pinv_wf : forall s r, wf s -> pinv io s = Ok r -> wf r.
  Proof.
    assert (B : forall b r, wf_b b -> inv_b io b = Ok r -> wf r).
    { intros b r W H. destruct (is_nom b) eqn:E.
      - destruct b as [vs f| |]; try discriminate.
        destruct (pinv_nom_ok io vs f W) as (r' & E' & W' & _). simpl in E', H. rewrite H in E'.
        injection E' as <-. exact W'.
      - apply (inv_b_ok io b r W); auto. now apply real_b_nom. }
    intros [|b|u] r W H; unfold pinv in H.
    - inv_bind H. injection H as <-. now apply Interval_wf in E.
    - eauto.
    - inv_bind H. rename r0 into l. apply mapM_Forall2 in E.
      destruct (u_values_facts io u W) as (W1 & _).
      assert (Wl : Forall wf l).
      { clear -E W1 B. induction E; constructor; inversion W1; subst; eauto. }
      destruct l as [|s l]; simpl in H; [discriminate|]. inversion Wl; subst. clear E Wl.
      revert s H H2. induction l as [|t l IH]; simpl; intros s H Ws.
      + injection H as <-. exact Ws.
      + inversion H3; subst. inv_bind H. apply pand_spec in E; auto. eapply IH; eauto. apply E.
  Qed.

  Lemma ExtReals_wf : wf (ExtReals (N:=N)).
  Proof.
    apply wf_of_pieces; [|simpl; lia]. apply pieces_real_iv.
    - simpl. repeat constructor; simpl; intuition discriminate.
    - discriminate.
    - apply wf_iv_pos. simpl. rewrite pos_NInf, pos_PInf. split; [lra|auto].
    - intros [v|] H1 H2; [|exact H1]. destruct H1 as (y & [<-|[<-|[]]] & <-);
        apply iv_mem_pm in H2; unfold pm, pos in H2; simpl in H2; lra.
  Qed.
  Lemma ExtRealsPos_wf : wf (ExtRealsPos (N:=N)).
  Proof.
    assert (P0 : -1 < pos (n0 (N:=N)) < 1) by (unfold pos, n0; apply ord_Fin).
    apply wf_of_pieces; [|simpl; lia]. apply pieces_real_iv.
    - simpl. repeat constructor; simpl; tauto.
    - discriminate.
    - apply wf_iv_pos. cbn [iv_a iv_b iv_lo iv_ro]. rewrite pos_PInf. split; [lra|]. split; [lra|auto].
    - intros [v|] H1 H2; [|exact H1]. destruct H1 as (y & [<-|[]] & <-);
        apply iv_mem_pm in H2; unfold pm, pos in H2; simpl in H2; lra.
  Qed.

  Lemma built_wf : forall s, built io s -> wf s.
  Proof.
    induction 1.
    - exact I.
    - now apply Interval_wf in H.
    - now apply FiniteReal_wf in H.
    - now apply FiniteNominal_wf in H.
    - now apply Range_wf in H.
    - apply ExtReals_wf.
    - apply ExtRealsPos_wf.
    - apply pand_spec in H1; auto. apply H1.
    - apply por_spec in H1; auto. apply H1.
    - now apply pinv_wf in H0.
  Qed.

  (** ** Membership tests *)
  Definition rv (v : val N) : rval := match v with VNum x => RNum (eR x) | VStr s => RStr s end.

  Lemma bcontains_ok : forall v b x, (match v with VNum _ => real_b b | VStr _ => True end) ->
    bcontains v b = Ok x -> (x = true <-> bmem (rv v) b).
  Proof.
    intros [n|str] [vs f|vs|i] x R H; simpl in H; try (now destruct R); try discriminate; injection H as <-.
    - unfold real_contains. rewrite inb_eeqb. cbn [rv]. now rewrite bmem_real.
    - cbn [rv bmem]. rewrite iv_mem_pm. apply iv_contains_R.
    - apply nom_contains_ok.
    - simpl. split; [discriminate|tauto].
  Qed.

  Lemma anyM_ok : forall v l x, (match v with VNum _ => Forall real_b l | VStr _ => True end) ->
    anyM (bcontains v) l = Ok x -> (x = true <-> exists b, In b l /\ bmem (rv v) b).
  Proof.
    intros v. induction l as [|b l IH]; simpl; intros x R H.
    - injection H as <-. split; [discriminate|]. intros (b & [] & _).
    - inv_bind H. apply bcontains_ok in E; [|destruct v; auto; now inversion R].
      destruct r.
      + injection H as <-. split; auto. intros _. exists b. split; auto. now apply E.
      + apply IH in H; [|destruct v; auto; now inversion R]. rewrite H. split.
        * intros (c & Hc & Hv). eauto.
        * intros (c & [<-|Hc] & Hv); [apply E in Hv; discriminate|eauto].
  Qed.

  Lemma contains_ok : forall v s x, wf s -> (match v with VNum _ => real_set s | VStr _ => True end) ->
    contains io v s = Ok x -> (x = true <-> mem (rv v) s).
  Proof.
    intros v [|b|u] x W R H; simpl in H.
    - injection H as <-. simpl. split; [discriminate|tauto].
    - now apply bcontains_ok.
    - destruct (u_values_facts io u W) as (W1 & W2 & W3 & W4).
      rewrite <- W2. apply anyM_ok; auto. destruct v; auto.
  Qed.
  Lemma contains_num_total : forall n s, exists x, contains io (VNum n) s = Ok x.
  Proof.
    intros n [|b|u]; simpl; [eauto|destruct b; simpl; eauto|].
    induction (u_values io u) as [|b l IH]; cbn [anyM]; [eauto|].
    assert (E : exists y, bcontains (VNum n) b = Ok y) by (destruct b; simpl; eauto).
    destruct E as (y & ->). simpl. destruct y; eauto.
  Qed.

  (** ** Equality *)
  Lemma peqb_mem : forall s t, peqb s t = true -> forall v, mem v s <-> mem v t.
  Proof.
    intros [|b|u] [|c|w]; simpl; try discriminate; intros H v.
    - reflexivity.
    - now apply beqb_mem.
    - unfold set_eqb in H. apply andb_true_iff in H. rewrite !forallb_forall in H. destruct H as (H1 & H2).
      split; intros (b & Hb & Hv).
      + apply H1 in Hb. apply inb_true in Hb. destruct Hb as (c & Hc & E). exists c. split; auto.
        now apply (beqb_mem b c E).
      + apply H2 in Hb. apply inb_true in Hb. destruct Hb as (c & Hc & E). exists c. split; auto.
        now apply (beqb_mem b c E).
  Qed.

  Lemma beqb_hash : forall (H : pyhash N) b c, real_b b -> beqb b c = true -> bhash H b = bhash H c.
  Proof.
    intros H [vs f|vs|i] [ws g|ws|j] R E; simpl in *; try discriminate; try tauto.
    - apply h_real_ok. now apply set_eqb_num.
    - unfold iv_eqb in E. rewrite !andb_true_iff in E. destruct E as (((E1 & E2) & E3) & E4).
      apply eqb_prop in E3. apply eqb_prop in E4. rewrite E3, E4.
      apply h_int_ok; now apply eeqb_eR.
  Qed.

  (** equal unions have matching pieces *)
  Lemma matching_perm : forall (H : pyhash N) u w, Forall wf_b u -> Forall wf_b w -> Forall real_b u ->
    ForallOrdPairs disjoint_b u -> ForallOrdPairs disjoint_b w ->
    (forall b, In b u -> exists c, In c w /\ beqb b c = true) ->
    (forall c, In c w -> exists b, In b u /\ beqb b c = true) ->
    Permutation (map (bhash H) u) (map (bhash H) w).
  Proof.
    intros H. induction u as [|b u IH]; intros w Wu Ww Ru Du Dw M1 M2.
    - destruct w as [|c w]; [constructor|]. destruct (M2 c) as (b & [] & _). now left.
    - inversion Wu; inversion Ru; subst. apply FOP_cons in Du. destruct Du as (Du1 & Du2).
      destruct (M1 b) as (c & Hc & E); [now left|].
      apply in_split in Hc. destruct Hc as (w1 & w2 & ->).
      assert (P : Permutation (w1 ++ c :: w2) (c :: w1 ++ w2)) by (symmetry; apply Permutation_middle).
      assert (Dw' : ForallOrdPairs disjoint_b (c :: w1 ++ w2)) by (eapply FOP_perm; [apply disjoint_b_sym|exact P|auto]).
      assert (Ww' : Forall wf_b (c :: w1 ++ w2)) by (eapply Permutation_Forall; eauto).
      apply FOP_cons in Dw'. destruct Dw' as (Dw1 & Dw2). inversion Ww'; subst.
      etransitivity; [|apply Permutation_map; symmetry; exact P]. simpl.
      rewrite (beqb_hash H b c) by auto. constructor. apply IH; auto.
      + intros b' Hb'. destruct (M1 b') as (c' & Hc' & E'); [now right|].
        exists c'. split; auto. eapply Permutation_in in Hc'; [|exact P]. destruct Hc' as [<-|]; auto.
        exfalso. rewrite Forall_forall in Du1. specialize (Du1 _ Hb').
        destruct (b_inhabited b) as (v & Hv); auto. apply (Du1 v Hv).
        apply (beqb_mem _ _ E'). now apply (beqb_mem _ _ E).
      + intros c' Hc'. destruct (M2 c') as (b' & [<-|Hb'] & E').
        * eapply Permutation_in; [symmetry; exact P|now right].
        * exfalso. rewrite Forall_forall in Dw1. specialize (Dw1 _ Hc').
          destruct (b_inhabited b) as (v & Hv); auto.
          apply (Dw1 v); [now apply (beqb_mem _ _ E)|now apply (beqb_mem _ _ E')].
        * eauto.
  Qed.

  Lemma beqb_sym : forall b c : bset N, beqb b c = true -> beqb c b = true.
  Proof.
    intros [vs f|vs|i] [ws g|ws|j]; simpl; try discriminate.
    - rewrite !andb_true_iff. intros (H1 & H2). split.
      + apply Bool.eqb_prop in H1. rewrite H1. apply Bool.eqb_reflx.
      + unfold set_eqb in *. now rewrite andb_comm.
    - unfold set_eqb. now rewrite andb_comm.
    - unfold iv_eqb. rewrite !andb_true_iff, !eeqb_pos. intros (((H1 & H2) & H3) & H4).
      apply Bool.eqb_prop in H3, H4. rewrite H1, H2, H3, H4, !Bool.eqb_reflx. auto.
  Qed.

  Lemma peqb_hash : forall (H : pyhash N) s t, wf s -> wf t -> real_set s -> peqb s t = true ->
    phash io H s = phash io H t.
  Proof.
    intros H [|b|u] [|c|w] Ws Wt R E; simpl in E; try discriminate; simpl.
    - reflexivity.
    - now apply beqb_hash.
    - apply h_union_ok. apply wf_union_iff in Ws, Wt. destruct Ws as (Pu & _), Wt as (Pw & _).
      etransitivity; [apply Permutation_map; symmetry; now apply u_values_perm|].
      etransitivity; [|apply Permutation_map; now apply u_values_perm].
      unfold set_eqb in E. apply andb_true_iff in E. rewrite !forallb_forall in E. destruct E as (E1 & E2).
      apply matching_perm; auto; try apply Pu; try apply Pw.
      + intros b Hb. apply E1 in Hb. now apply inb_true in Hb.
      + intros c Hc. apply E2 in Hc. apply inb_true in Hc. destruct Hc as (b & Hb & E).
        exists b. split; auto. now apply beqb_sym.
  Qed.
End Proofs.

(** ** Executable instances for the examples *)
Definition io_id (N : numsys) : iterorder N :=
  {| it_iv := fun l => l; it_iv_perm := fun l => Permutation_refl l;
     it_bs := fun l => l; it_bs_perm := fun l => Permutation_refl l |}.
Definition io_rev (N : numsys) : iterorder N :=
  {| it_iv := fun l => rev l; it_iv_perm := fun l => Permutation_rev l;
     it_bs := fun l => rev l; it_bs_perm := fun l => Permutation_rev l |}.

Definition QS := Qnum_sys.
Definition qn (q : Q) : ext (num QS) := Fin q.
Definition ioQ : iterorder QS := io_id QS.
(** Interval(a, b) etc. on rationals, for examples *)
Definition iv (a b : ext (num QS)) (lo ro : bool) : pset QS := PB (BInt (mkIv a b lo ro)).
Definition fr (l : list (ext (num QS))) : pset QS := PB (BReal l).
Definition fn (l : list string) : pset QS := PB (BNom l None).
