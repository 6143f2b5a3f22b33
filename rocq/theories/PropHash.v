(** Equal objects have equal hashes (C52). *)
From Coq Require Import List Bool String Permutation ZArith Reals QArith Lra Lia.
From Verif Require Import Base Num Sets SetSpec SetIv SetProofs SetIvOr SetOr SetOps SetAlg SetBuilt Poly Trans TransSpec TransFacts Logs Spe SpeFacts Hash HashSpec.
Import ListNotations.

Section Sets.
  Context {N : numsys} (io : iterorder N) (H : pyhash N).
  Lemma flags_equal : forall f g : pyflag, f <> Some false -> g <> Some false -> Bool.eqb (truthy f) (truthy g) = true -> f = g.
  Proof. intros [[]|] [[]|]; cbn; congruence. Qed.
  Lemma beqb_hash_unflagged : forall b c : bset N, unflagged_b b -> unflagged_b c -> beqb b c = true -> bhash H b = bhash H c.
  Proof.
    intros [vs f|vs|i] [ws g|ws|j] U V E; try discriminate; try (apply (beqb_hash H); auto; exact I).
    cbn in *. apply andb_true_iff in E. destruct E as (E1 & E2). rewrite (flags_equal f g); auto; [|intros ->; auto|intros ->; auto]. apply h_nom_ok.
    unfold set_eqb in E2. apply andb_true_iff in E2. rewrite !forallb_forall in E2. destruct E2 as (A & B).
    intros x. split; intros Hx; [apply A in Hx|apply B in Hx]; apply inb_true in Hx; destruct Hx as (y & Hy & E); apply String.eqb_eq in E; now subst.
  Qed.
  Lemma matching_perm_unflagged : forall u w : list (bset N), Forall wf_b u -> Forall wf_b w -> Forall unflagged_b u -> Forall unflagged_b w ->
    ForallOrdPairs disjoint_b u -> ForallOrdPairs disjoint_b w ->
    (forall b, In b u -> exists c, In c w /\ beqb b c = true) ->
    (forall c, In c w -> exists b, In b u /\ beqb b c = true) ->
    Permutation (map (bhash H) u) (map (bhash H) w).
  Proof.
    induction u as [|b u IH]; intros w Wu Ww Ru Rw Du Dw M1 M2.
    - destruct w as [|c w]; [constructor|]. destruct (M2 c) as (b & [] & _). now left.
    - inversion Wu; inversion Ru; subst. apply FOP_cons in Du. destruct Du as (Du1 & Du2).
      destruct (M1 b) as (c & Hc & E); [now left|].
      apply in_split in Hc. destruct Hc as (w1 & w2 & ->).
      assert (P : Permutation (w1 ++ c :: w2) (c :: w1 ++ w2)) by (symmetry; apply Permutation_middle).
      assert (Dw' : ForallOrdPairs disjoint_b (c :: w1 ++ w2)) by (eapply FOP_perm; [apply disjoint_b_sym|exact P|auto]).
      assert (Ww' : Forall wf_b (c :: w1 ++ w2)) by (eapply Permutation_Forall; eauto).
      assert (Rw' : Forall unflagged_b (c :: w1 ++ w2)) by (eapply Permutation_Forall; eauto).
      apply FOP_cons in Dw'. destruct Dw' as (Dw1 & Dw2). inversion Ww'; inversion Rw'; subst.
      etransitivity; [|apply Permutation_map; symmetry; exact P]. simpl.
      rewrite (beqb_hash_unflagged b c) by auto. constructor. apply IH; auto.
      + intros b' Hb'. destruct (M1 b') as (c' & Hc' & E'); [now right|].
        exists c'. split; auto. eapply Permutation_in in Hc'; [|exact P]. destruct Hc' as [<-|]; auto.
        exfalso. rewrite Forall_forall in Du1. specialize (Du1 _ Hb').
        destruct (b_inhabited b) as (v & Hv); auto. apply (Du1 v Hv).
        apply (beqb_mem _ _ E'). now apply (beqb_mem _ _ E).
      + intros c' Hc'. destruct (M2 c') as (b' & [<-|Hb'] & E').
        * eapply Permutation_in; [symmetry; exact P|now right].
        * exfalso. rewrite Forall_forall in Dw1. specialize (Dw1 _ Hc').
          destruct (b_inhabited b) as (v & Hv); auto.
          apply (Dw1 v); [now apply (beqb_mem _ _ E)|now apply (beqb_mem _ _ E')].
        * eauto.
  Qed.
  (** C09 for all sets whose flags are not False *)
  Theorem C09_equal_hash_unflagged_partial : forall s t : pset N, wf s -> wf t -> unflagged s -> unflagged t -> peqb s t = true -> phash io H s = phash io H t.
  Proof.
    intros [|b|u] [|c|w] Ws Wt U V E; simpl in E; try discriminate; simpl.
    - reflexivity.
    - now apply beqb_hash_unflagged.
    - apply h_union_ok. apply wf_union_iff in Ws, Wt. destruct Ws as (Pu & _), Wt as (Pw & _).
      etransitivity; [apply Permutation_map; symmetry; now apply u_values_perm|].
      etransitivity; [|apply Permutation_map; now apply u_values_perm].
      unfold set_eqb in E. apply andb_true_iff in E. rewrite !forallb_forall in E. destruct E as (E1 & E2).
      apply matching_perm_unflagged; auto; try apply Pu; try apply Pw.
      + intros b Hb. apply E1 in Hb. now apply inb_true in Hb.
      + intros c Hc. apply E2 in Hc. apply inb_true in Hc. destruct Hc as (b & Hb & E).
        exists b. split; auto. now apply beqb_sym.
  Qed.
End Sets.

Section Objects.
  Context {N : numsys} (io : iterorder N) (H : pyhash N) {S : logsys} {D : distsys N S} (O : objhash N S D).
  Notation tr := (tr N).
  Notation spe := (spe D).
  Notation thash := (thash io H O).
  Notation shash := (shash io H O).
  Lemma nums_hash : forall cs ds, list_eqb neqb cs ds = true -> map (oh_num O) cs = map (oh_num O) ds.
  Proof. induction cs as [|c cs IH]; intros [|d ds] E; cbn in *; try discriminate; auto. apply andb_true_iff in E. destruct E as (E1 & E2). f_equal; auto. apply oh_num_ok. now apply neqb_ok. Qed.
  (** equal transforms and events *)
  Theorem C52_transform_partial : forall s t : tr, hashable s -> hashable t -> teqb s t = true -> thash s = thash t.
  Proof.
    induction s using tr_ind'; intros u Hs Ht E; destruct u as [y|u e'|u c|u c|u|u|u ds|m0|j u w|m0|m0]; cbn [teqb] in E; try discriminate; cbn [hashable] in *; cbn [Hash.thash];
      repeat match goal with K : _ && _ = true |- _ => apply andb_true_iff in K; destruct K end.
    - apply String.eqb_eq in E. now subst.
    - rewrite (IHs u); auto. match goal with K : Pos.eqb _ _ = true |- _ => apply Pos.eqb_eq in K; now subst end.
    - rewrite (IHs u); auto. match goal with K : neqb ?a ?b = true |- _ => now rewrite (oh_num_ok _ _ _ O a b) by now apply neqb_ok end.
    - rewrite (IHs u); auto. match goal with K : neqb ?a ?b = true |- _ => now rewrite (oh_num_ok _ _ _ O a b) by now apply neqb_ok end.
    - now rewrite (IHs u).
    - now rewrite (IHs u).
    - rewrite (IHs u); auto. match goal with K : list_eqb _ ?a ?b = true |- _ => now rewrite (nums_hash a b) end.
    - assert (K : map (fun p => thash (fst p)) l = map (fun p => thash (fst p)) m0 /\ map (fun p => thash (snd p)) l = map (fun p => thash (snd p)) m0).
      { revert m0 Ht E. induction H0 as [|(a & e) l (Ha & He) F IH]; intros [|(b & f) m] Ht E; try discriminate; auto. cbn [All fst snd] in *.
        apply andb_true_iff in E. destruct E as (E & E'). apply andb_true_iff in E. destruct E as (E1 & E2). destruct Hs as ((Hs1 & Hs2) & Hs), Ht as ((Ht1 & Ht2) & Ht).
        destruct (IH Hs m Ht E') as (K1 & K2). cbn [map fst snd]. rewrite K1, K2, (Ha b), (He f); auto. }
      destruct K as (K1 & K2). now rewrite K1, K2.
    - destruct Hs as (Hs & Ws & Us), Ht as (Ht & Wt & Ut). rewrite (IHs u), (C09_equal_hash_unflagged_partial io H v w) by auto. f_equal. destruct k, j; try discriminate; reflexivity.
    - assert (K : map thash l = map thash m0).
      { revert m0 Ht E. induction H0 as [|a l Ha F IH]; intros [|b m] Ht E; try discriminate; auto. cbn [All] in *. apply andb_true_iff in E. destruct E as (E1 & E2). destruct Hs as (Hs1 & Hs), Ht as (Ht1 & Ht). cbn [map]. f_equal; auto. }
      now rewrite K.
    - assert (K : map thash l = map thash m0).
      { revert m0 Ht E. induction H0 as [|a l Ha F IH]; intros [|b m] Ht E; try discriminate; auto. cbn [All] in *. apply andb_true_iff in E. destruct E as (E1 & E2). destruct Hs as (Hs1 & Hs), Ht as (Ht1 & Ht). cbn [map]. f_equal; auto. }
      now rewrite K.
  Qed.
  Lemma env_hash_ok : forall e f : tenv (N:=N), All (fun p => hashable (snd p)) e -> All (fun p => hashable (snd p)) f -> env_eqb e f = true -> env_hash io H O e = env_hash io H O f.
  Proof.
    intros e f He Hf E. unfold env_hash. f_equal. revert f He Hf E. unfold env_eqb.
    induction e as [|(x & t) e IH]; intros [|(y & u) f] He Hf E; cbn in *; try discriminate; auto. rewrite !andb_true_iff in E. destruct E as ((E1 & E2) & E3). apply String.eqb_eq in E1. subst y. rewrite (C52_transform_partial t u); try tauto. f_equal. apply IH; tauto.
  Qed.
  Lemma lookup_in : forall A (l : list (string * A)) x a, NoDup (map fst l) -> In (x, a) l -> lookup x l = Some a.
  Proof.
    induction l as [|(y & b) l IH]; intros x a Nd Hin; [destruct Hin|]. cbn in *. inversion Nd; subst. destruct (String.eqb_spec x y) as [->|Nx].
    - destruct Hin as [E|Hin]; [now injection E as ->|]. exfalso. apply H2. apply in_map_iff. exists (y, a). auto.
    - destruct Hin as [E|Hin]; [injection E as -> _; congruence|auto].
  Qed.
  (** dictionaries with the same keys in the same order, whose values are equal *)
  Lemma dict_hash : forall A (eqb : A -> A -> bool) (h : A -> Z) (l m : list (string * A)), (forall x y, eqb x y = true -> h x = h y) ->
    NoDup (map fst m) -> map fst l = map fst m ->
    forallb (fun p => match lookup (fst p) m with Some q => eqb (snd p) q | None => false end) l = true ->
    map (fun p => oh_tuple O "" [oh_text O (fst p); h (snd p)]) l = map (fun p => oh_tuple O "" [oh_text O (fst p); h (snd p)]) m.
  Proof.
    intros A eqb h l m Hh Nd Ef E.
    assert (K : forall l', (forall p, In p l' -> In p m) -> map fst l = map fst l' -> map (fun p => oh_tuple O "" [oh_text O (fst p); h (snd p)]) l = map (fun p => oh_tuple O "" [oh_text O (fst p); h (snd p)]) l').
    { clear Ef. induction l as [|(x & a) l IH]; intros [|(y & b) l'] Hin El; cbn in El; try discriminate; auto. injection El as -> El. cbn [forallb fst snd] in E. apply andb_true_iff in E. destruct E as (E1 & E2).
      rewrite (lookup_in _ m y b) in E1 by (auto; apply Hin; now left). cbn [map fst snd]. rewrite (Hh a b E1). f_equal. apply IH; auto. intros p Hp. apply Hin. now right. }
    now apply K.
  Qed.
  Lemma dist_hash_ok : forall d e, map fst (d_kwds O d) = map fst (d_kwds O e) -> dist_eqb O d e = true -> dist_hash O d = dist_hash O e.
  Proof.
    intros d e K E. unfold dist_eqb, kwds_eqb in E. rewrite !andb_true_iff in E. destruct E as ((E1 & E2) & _ & E3). apply String.eqb_eq in E1. unfold dist_hash. rewrite E1, (nums_hash _ _ E2).
    now rewrite (dict_hash _ neqb (oh_num O) (d_kwds O d) (d_kwds O e)); [|intros x y Exy; apply oh_num_ok; now apply neqb_ok|apply d_keys| |].
  Qed.
  (** equal expressions; distributions are compared as src/spe.py:828-836 does *)
  Context (Hd : forall d e : dist D, deqb d e = true -> dist_eqb O d e = true).
  Theorem C52_expression_partial : forall s t : spe, shashable s -> shashable t -> alike O s t -> speqb s t = true -> shash s = shash t.
  Proof.
    induction s using spe_ind'; intros u Hs Ht Al E; destruct u as [disc' x' d' supp' cond' env'|x' a' env'|x' ws'|m|m]; inversion Al; subst; cbn [speqb] in E; cbn [shashable] in *; cbn [Hash.shash];
      repeat match goal with K : _ && _ = true |- _ => apply andb_true_iff in K; destruct K end;
      repeat match goal with K : String.eqb _ _ = true |- _ => apply String.eqb_eq in K; subst | K : Bool.eqb _ _ = true |- _ => apply Bool.eqb_prop in K; subst end.
    - rewrite (dist_hash_ok d d') by auto. rewrite (env_hash_ok env env') by auto. assert (K : phash io H (PB (BInt supp)) = phash io H (PB (BInt supp'))) by (apply (beqb_hash_unflagged H (BInt supp) (BInt supp')); auto; exact I). now rewrite K.
    - f_equal. f_equal. f_equal. apply oh_num_ok. now apply neqb_ok.
    - match goal with K : Qdict_eqb _ _ = true |- _ => unfold Qdict_eqb in K; apply andb_true_iff in K; destruct K as (_ & K); rename K into Kq end.
      match goal with K : map fst ws = map fst ws' |- _ => rewrite (dict_hash _ Qeq_bool (oh_Q O) ws ws' (fun p q Epq => oh_Q_ok _ _ _ O p q (Qeq_bool_eq p q Epq)) Ht K Kq) end. reflexivity.
    - match goal with K : Forall2 _ l m |- _ => rename K into F end.
      assert (K : map (fun p => shash (fst p)) l = map (fun p => shash (fst p)) m /\ map (fun p => oh_weight O (snd p)) l = map (fun p => oh_weight O (snd p)) m).
      { clear Al. revert Ht E. induction F as [|a b l m Hab F IH]; intros Ht E; auto. cbn [All] in *. rewrite !andb_true_iff in E. destruct E as ((E1 & E2) & E3). destruct Hs as (Hs1 & Hs), Ht as (Ht1 & Ht).
        destruct IH as (K1 & K2); auto; [intros c Hc; apply H0; now right|]. cbn [map]. rewrite K1, K2, (H0 a (or_introl eq_refl) (fst b)) by auto. now rewrite (oh_weight_ok _ _ _ O (snd a) (snd b)). }
      destruct K as (K1 & K2). now rewrite K1, K2.
    - match goal with K : Forall2 _ l m |- _ => rename K into F end.
      assert (K : map shash l = map shash m).
      { clear Al. revert Ht E. induction F as [|a b l m Hab F IH]; intros Ht E; auto. cbn [All] in *. rewrite !andb_true_iff in E. destruct E as (E1 & E3). destruct Hs as (Hs1 & Hs), Ht as (Ht1 & Ht).
        cbn [map]. rewrite IH; auto; [|intros c Hc; apply H0; now right]. now rewrite (H0 a (or_introl eq_refl) b). }
      now rewrite K.
  Qed.
End Objects.
