(** Proofs about leaves: cumulative distribution functions, intervals, finite sets. *)
From Coq Require Import List Bool String Reals Lra Lia ZArith QArith Qreals FunctionalExtensionality Permutation.
From Verif Require Import Base Num Sets SetSpec SetIv SetProofs SetOr SetOps SetAlg SetBuilt
  Poly Trans TransSpec TransFacts PolyProofs InvProofs InvMain EvProofs ArithProofs
  Dnf DnfSpec DnfProofs Logs Spe SpeSpec SpeFacts SpeRect.
Import ListNotations.
Local Open Scope R_scope.

Lemma at_most_mono : forall x y v, ele x y -> at_most x v -> at_most y v.
Proof.
  intros x y v H (r & -> & K). exists r. split; auto. unfold ele, elt in *.
  destruct H as [H|<-]; auto. destruct K as [K|K]; [|destruct x; try discriminate; injection K as <-; destruct y; auto].
  left. destruct x, y; try tauto; lra.
Qed.
Lemma eltb_ele : forall (N : numsys) (x y : ext (num N)), eltb x y = false -> ele (eR y) (eR x).
Proof.
  intros N x y H. assert (~ elt (eR x) (eR y)) by (intro K; apply eltb_elt in K; congruence). unfold ele, elt in *.
  destruct (eR x) as [|a|], (eR y) as [|b|]; simpl in *; auto; try tauto. destruct (Rtotal_order b a) as [|[->|]]; auto; tauto.
Qed.
Lemma ele_trans : forall x y z, ele x y -> ele y z -> ele x z.
Proof.
  intros x y z [H|<-] K; auto. destruct K as [K|<-]; [left|left; auto]. unfold elt in *. destruct x, y, z; try tauto; lra.
Qed.
Lemma at_most_num : forall x r, at_most x (FNum r) <-> match x with NInf => False | Fin c => r <= c | PInf => True end.
Proof.
  intros x r. unfold at_most, ele, elt. split.
  - intros (r' & E & H). injection E as <-. destruct x; intuition (try discriminate; try lra). injection H0 as ->. lra.
  - intros H. exists r. split; auto. destruct x; try tauto. destruct H; [left; auto|right; now subst].
Qed.
Lemma at_most_str : forall x s, ~ at_most x (FStr s).
Proof. intros x s (r & E & _). discriminate. Qed.

Section Cut.
  Context {N : numsys}.
  Notation interval := (interval N).
  Lemma in_iv_num : forall (i : interval) r, in_iv i (FNum r) <-> above (iv_a i) (iv_lo i) r /\ below (iv_b i) (iv_ro i) r.
  Proof. intros. apply iv_fm. Qed.
  Lemma in_iv_str : forall (i : interval) s, ~ in_iv i (FStr s).
  Proof. intros i s H. exact H. Qed.

  (** the interval is, almost surely, what lies above l and at most u *)
  Definition cuts (i : interval) (l u : ext R) (v : fval) : Prop := in_iv i v <-> at_most u v /\ ~ at_most l v.
  Lemma cut_prob : forall I i l u, law I -> I (ind (fun v => ~ cuts i l u v)) = 0 -> ele l u ->
    I (ind (in_iv i)) = I (ind (at_most u)) - I (ind (at_most l)).
  Proof.
    intros I i l u L H O. rewrite <- (law_minus L) by auto with bnd. apply (law_as L _ _ _ H); auto with bnd.
    intros v Hv. assert (C : cuts i l u v) by (destruct (dec (cuts i l u v)); tauto). pose proof (at_most_mono l u v O).
    unfold cuts, ind in *. destruct (dec (in_iv i v)), (dec (at_most u v)), (dec (at_most l v)); try lra; tauto.
  Qed.

  (** ** The end points used by the code *)
  Definition low (disc : bool) (i : interval) : ext R :=
    match iv_a i with
    | Fin c => Fin (if disc then IZR (nfloor c - (if negb (iv_lo i) && is_int c then 1 else 0)) else toR c)
    | NInf => NInf
    | PInf => PInf
    end.
  Definition high (disc : bool) (i : interval) : ext R :=
    match iv_b i with
    | Fin c => Fin (if disc then IZR (nfloor c - (if iv_ro i && is_int c then 1 else 0)) else toR c)
    | NInf => NInf
    | PInf => PInf
    end.
  Lemma is_int_ok : forall c : num N, is_int c = true <-> toR c = IZR (nfloor c).
  Proof. intro c. unfold is_int. rewrite neqb_ok, nint_ok. reflexivity. Qed.
  Lemma floor_of_int : forall (c : num N) z, toR c = IZR z -> nfloor c = z.
  Proof.
    intros c z H. pose proof (nfloor_ok N c) as (A & B). rewrite H in *.
    assert (nfloor c <= z)%Z by (apply le_IZR; lra). assert (z < nfloor c + 1)%Z by (apply lt_IZR; rewrite plus_IZR; lra). lia.
  Qed.
  Lemma is_int_int : forall (c : num N), is_int c = true <-> exists z, toR c = IZR z.
  Proof. intro c. rewrite is_int_ok. split; [eauto|]. intros (z & H). now rewrite (floor_of_int c z H). Qed.
  Lemma above_low : forall (c : num N) (lo : bool) z, (toR c < IZR z <-> ~ IZR z <= IZR (nfloor c)) /\
    (lo = false -> (toR c <= IZR z <-> ~ IZR z <= IZR (nfloor c - (if is_int c then 1 else 0)))).
  Proof.
    intros c lo z. pose proof (nfloor_ok N c) as (A & B). split.
    - split; intro H; [lra|]. apply Rnot_le_lt in H. apply lt_IZR in H. assert (nfloor c + 1 <= z)%Z by lia. apply IZR_le in H0. rewrite plus_IZR in H0. lra.
    - intros _. destruct (is_int c) eqn:E.
      + apply is_int_ok in E. rewrite minus_IZR. rewrite E. split; intro H; [lra|]. apply Rnot_le_lt in H.
        apply Rnot_lt_le. intro K. apply lt_IZR in K. assert (z + 1 <= nfloor c)%Z by lia. apply IZR_le in H0. rewrite plus_IZR in H0. lra.
      + rewrite Z.sub_0_r. assert (toR c <> IZR (nfloor c)) by (intro K; apply is_int_ok in K; congruence).
        split; intro H0; [lra|]. apply Rnot_le_lt in H0. apply lt_IZR in H0. assert (nfloor c + 1 <= z)%Z by lia. apply IZR_le in H1. rewrite plus_IZR in H1. lra.
  Qed.
  Lemma below_high : forall (c : num N) z, (IZR z <= toR c <-> IZR z <= IZR (nfloor c)) /\
    (IZR z < @toR N c <-> IZR z <= IZR (nfloor c - (if is_int c then 1 else 0))).
  Proof.
    intros c z. pose proof (nfloor_ok N c) as (A & B). assert (K : IZR z <= toR c <-> IZR z <= IZR (nfloor c)).
    { split; intro H; [|lra]. apply IZR_le. assert (IZR z < IZR (nfloor c + 1)) by (rewrite plus_IZR; lra). apply lt_IZR in H0. lia. }
    split; auto. destruct (is_int c) eqn:E.
    - apply is_int_ok in E. rewrite E. split; intro H.
      + apply lt_IZR in H. apply IZR_le. lia.
      + apply le_IZR in H. apply IZR_lt. lia.
    - rewrite Z.sub_0_r, <- K. assert (toR c <> IZR (nfloor c)) by (intro Q; apply is_int_ok in Q; congruence).
      split; intro H0; [lra|]. apply K in H0. lra.
  Qed.
  Lemma wf_iv_ends : forall i : interval, wf_iv i -> iv_a i <> PInf /\ iv_b i <> NInf.
  Proof. intros i (H & _). unfold elt in H. split; intro K; rewrite K in H; simpl in H; destruct (eR (iv_a i)); tauto. Qed.
  Lemma cuts_disc : forall i v, wf_iv i -> is_integer v -> cuts i (low true i) (high true i) v.
  Proof.
    intros i v W (z & ->). destruct (wf_iv_ends i W) as (E1 & E2). unfold cuts. rewrite in_iv_num, !at_most_num. unfold low, high, above, below.
    assert (A : (match iv_a i with NInf => True | Fin c => if iv_lo i then toR c < IZR z else toR c <= IZR z | PInf => False end) <->
      ~ match (match iv_a i with Fin c => Fin (IZR (nfloor c - (if negb (iv_lo i) && is_int c then 1 else 0))) | NInf => NInf | PInf => PInf end) with
        | NInf => False | Fin c => IZR z <= c | PInf => True end).
    { destruct (iv_a i) as [|c|]; try tauto. destruct (above_low c (iv_lo i) z) as (H1 & H2). destruct (iv_lo i); simpl; [rewrite Z.sub_0_r; auto|auto]. }
    assert (B : (match iv_b i with NInf => False | Fin c => if iv_ro i then IZR z < toR c else IZR z <= toR c | PInf => True end) <->
      match (match iv_b i with Fin c => Fin (IZR (nfloor c - (if iv_ro i && is_int c then 1 else 0))) | NInf => NInf | PInf => PInf end) with
        | NInf => False | Fin c => IZR z <= c | PInf => True end).
    { destruct (iv_b i) as [|c|]; try tauto. destruct (below_high c z) as (H1 & H2). destruct (iv_ro i); simpl; [auto|rewrite Z.sub_0_r; auto]. }
    destruct (iv_a i), (iv_b i); tauto.
  Qed.
  Lemma cuts_cont : forall i v, wf_iv i -> (forall c, iv_a i = Fin c \/ iv_b i = Fin c -> v <> FNum (toR c)) -> cuts i (low false i) (high false i) v.
  Proof.
    intros i [r|s] W H; [|unfold cuts; pose proof (in_iv_str i s); pose proof (at_most_str (high false i) s); tauto].
    destruct (wf_iv_ends i W) as (E1 & E2). unfold cuts. rewrite in_iv_num, !at_most_num. unfold low, high, above, below.
    assert (A : forall c, iv_a i = Fin c \/ iv_b i = Fin c -> r <> toR c) by (intros c Hc K; apply (H c Hc); now f_equal).
    destruct (iv_a i) as [|c|] eqn:Ea; try tauto; destruct (iv_b i) as [|d|] eqn:Eb; try tauto;
      try (pose proof (A c (or_introl eq_refl))); try (pose proof (A d (or_intror eq_refl)));
      destruct (iv_lo i), (iv_ro i); split; intros; intuition lra.
  Qed.
  Lemma low_high : forall disc i, wf_iv i -> ele (low disc i) (high disc i).
  Proof.
    intros disc i W. destruct (wf_iv_ends i W) as (E1 & E2). destruct W as (W & _). unfold low, high, ele, elt, eR in *.
    destruct (iv_a i) as [|c|]; try tauto; destruct (iv_b i) as [|d|]; try tauto; simpl in *; auto.
    destruct disc; [|auto]. pose proof (nfloor_ok N c) as (A & B). pose proof (nfloor_ok N d) as (A' & B').
    assert (K : (nfloor c <= nfloor d)%Z) by (assert (IZR (nfloor c) < IZR (nfloor d + 1)) by (rewrite plus_IZR; lra); apply lt_IZR in H; lia).
    assert (G : (nfloor c - (if negb (iv_lo i) && is_int c then 1 else 0) <= nfloor d - (if iv_ro i && is_int d then 1 else 0))%Z).
    { destruct (iv_ro i); simpl; [|destruct (negb (iv_lo i) && is_int c); lia]. destruct (is_int d) eqn:Ed.
      - apply is_int_ok in Ed. rewrite Ed in W. assert (nfloor c < nfloor d)%Z by (apply lt_IZR; lra). destruct (negb (iv_lo i) && is_int c); lia.
      - destruct (negb (iv_lo i) && is_int c); lia. }
    apply IZR_le in G. destruct G; [left; auto|right; now f_equal].
  Qed.
  (** where int() rounds down *)
  Definition rounds (x : ext (num N)) : Prop := match x with Fin c => 0 <= toR c \/ (exists z, toR c = IZR z) | _ => True end.
  Lemma ntrunc_floor : forall c : num N, rounds (Fin c) -> ntrunc c = nfloor c.
  Proof.
    intros c H. unfold ntrunc. destruct (nltb c (nint 0)) eqn:E; auto. apply nltb_ok in E. rewrite nint_ok in E.
    destruct H as [H|(z & H)]; [lra|]. rewrite (floor_of_int c z H). rewrite (floor_of_int (nopp c) (- z)); [lia|]. rewrite nopp_ok, H, opp_IZR. reflexivity.
  Qed.
  Lemma toR_sub1 : forall z, @toR N (nadd (nint z) (nint (-1))) = IZR (z - 1) :> R.
  Proof. intro z. rewrite nadd_ok, !(nint_ok N), minus_IZR. lra. Qed.
  Lemma interval_ends : forall i ol orr, wf_iv i -> rounds (iv_a i) -> rounds (iv_b i) ->
    (if negb (iv_lo i) then int_or_isinf_neg (iv_a i) else Ok false) = Ok ol ->
    (if iv_ro i then int_or_isinf_pos (iv_b i) else Ok false) = Ok orr ->
    eR (esub_bool (float_to_int (iv_a i)) ol) = low true i /\ eR (esub_bool (float_to_int (iv_b i)) orr) = high true i.
  Proof.
    intros i ol orr W Ra Rb Ha Hb. split; unfold low, high.
    - destruct (iv_a i) as [|c|]; [destruct ol; reflexivity| |destruct ol; reflexivity]. simpl float_to_int. rewrite (ntrunc_floor c Ra).
      destruct (iv_lo i); simpl in *.
      + injection Ha as <-. simpl. now rewrite nint_ok, Z.sub_0_r.
      + injection Ha as <-. destruct (is_int c); simpl; f_equal; [apply toR_sub1|now rewrite nint_ok, Z.sub_0_r].
    - destruct (iv_b i) as [|c|]; [destruct orr; reflexivity| |destruct orr; reflexivity]. simpl float_to_int. rewrite (ntrunc_floor c Rb).
      destruct (iv_ro i); simpl in *.
      + injection Hb as <-. destruct (is_int c); simpl; f_equal; [apply toR_sub1|now rewrite nint_ok, Z.sub_0_r].
      + injection Hb as <-. simpl. now rewrite nint_ok, Z.sub_0_r.
  Qed.
  Lemma support_ends : forall disc (i : interval), (disc = true -> int_supp i) -> wf_iv i ->
    eR (esub_bool (leaf_xl disc i) disc) = low disc i /\ eR (leaf_xu disc i) = high disc i.
  Proof.
    intros [|] i Hd W; unfold leaf_xl, leaf_xu, low, high; simpl; [|destruct (iv_a i), (iv_b i); split; reflexivity].
    destruct (Hd eq_refl) as (Ia & Ib). split.
    - destruct (iv_a i) as [|c|]; try (destruct (iv_lo i); reflexivity). simpl in *. destruct Ia as (z & Hz).
      assert (Ic : is_int c = true) by (apply is_int_int; eauto). rewrite (ntrunc_floor c) by (simpl; eauto). rewrite Ic. destruct (iv_lo i); simpl; f_equal.
      + rewrite !nadd_ok, !(nint_ok N), Z.sub_0_r. lra.
      + rewrite nadd_ok, !(nint_ok N), minus_IZR. lra.
    - destruct (iv_b i) as [|c|]; try (destruct (iv_ro i); reflexivity). simpl in *. destruct Ib as (z & Hz).
      assert (Ic : is_int c = true) by (apply is_int_int; eauto). rewrite (ntrunc_floor c) by (simpl; eauto). rewrite Ic. destruct (iv_ro i); simpl; f_equal.
      + apply toR_sub1.
      + now rewrite nint_ok, Z.sub_0_r.
  Qed.
End Cut.

Lemma sumR_perm_map : forall A (f : A -> R) l m, Permutation l m -> sumR (map f l) = sumR (map f m).
Proof. intros A f l m H. apply sumR_perm. now apply Permutation_map. Qed.
Lemma sumR_zero : forall A (f : A -> R) l, (forall a, In a l -> f a = 0) -> sumR (map f l) = 0.
Proof. induction l; simpl; intros H; auto. rewrite H, IHl; auto; lra. Qed.
(** the indicator of a disjoint union *)
Lemma ind_FOP : forall A B (P : B -> A -> Prop) (l : list B) a,
  ForallOrdPairs (fun b c => ~ (P b a /\ P c a)) l -> sumR (map (fun b => ind (P b) a) l) = ind (fun a => exists b, In b l /\ P b a) a.
Proof.
  intros A B P l a H. induction H as [|b l Hb _ IH]; simpl.
  - rewrite ind_false; auto. intros (b & [] & _).
  - rewrite IH. rewrite Forall_forall in Hb. rewrite <- ind_or_disj.
    + apply ind_eq. split.
      * intros [H|(c & Hc & K)]; eauto.
      * intros (c & [<-|Hc] & K); eauto.
    + intros (K1 & c & Hc & K2). apply (Hb c Hc). auto.
Qed.
Lemma FOP_weaken : forall A (P Q : A -> A -> Prop) l, (forall a b, In a l -> In b l -> P a b -> Q a b) -> ForallOrdPairs P l -> ForallOrdPairs Q l.
Proof.
  intros A P Q l H K. induction K as [|a l Ha _ IH]; constructor.
  - rewrite Forall_forall in *. intros b Hb. apply H; simpl; auto.
  - apply IH. intros. apply H; simpl; auto.
Qed.
Lemma NoDup_FOP : forall A (l : list A), NoDup l -> ForallOrdPairs (fun a b => a <> b) l.
Proof. induction 1; constructor; auto. apply Forall_forall. intros y Hy ->. auto. Qed.
Lemma FOP_map : forall A B (f : A -> B) (P : B -> B -> Prop) l, ForallOrdPairs (fun a b => P (f a) (f b)) l <-> ForallOrdPairs P (map f l).
Proof.
  intros A B f P l. split; intro H.
  - induction H; simpl; constructor; auto. now apply Forall_map.
  - remember (map f l) as m. revert l Heqm. induction H as [|b m Hb _ IH]; intros [|a l] E; try discriminate; constructor.
    + injection E as -> ->. rewrite Forall_map in Hb. exact Hb.
    + injection E as -> ->. auto.
Qed.

Lemma sub_nonneg : forall {N : numsys} (supp i : interval N), wf_iv i -> ele (Fin 0) (eR (iv_a supp)) ->
  (forall v, bmem v (BInt i) -> bmem v (BInt supp)) -> ele (Fin 0) (eR (iv_a i)).
Proof.
  intros N supp i Wb P0 Sb.
    assert (Pos : forall r, iv_mem (Fin r) i -> 0 <= r).
    { intros r Hr. assert (K : iv_mem (Fin r) supp) by (apply (Sb (RNum (Fin r))); exact Hr). destruct K as (K & _). unfold ele, elt in *. destruct (iv_a supp) as [|c|]; simpl in *.
      - destruct P0 as [[]|P0]; discriminate.
      - assert (0 <= toR c) by (destruct P0 as [P0|P0]; [lra|injection P0; lra]). destruct (iv_lo supp); [lra|]. destruct K as [K|K]; [lra|injection K; lra].
      - destruct (iv_lo supp); intuition discriminate. }
    destruct Wb as (Wb & Wl & Wr). destruct (iv_a i) as [|a|] eqn:Ea; simpl.
      - exfalso. destruct (iv_inhabited i) as (r & Hr); [unfold wf_iv; rewrite Ea; auto|].
        assert (Hm : iv_mem (Fin (Rmin r (-1))) i).
        { destruct Hr as (_ & Hr). unfold iv_mem. rewrite Ea, Wl by auto. split; [simpl; auto|]. pose proof (Rmin_l r (-1)) as Hl. unfold ele, elt in *.
          destruct (eR (iv_b i)) as [|q|]; destruct (iv_ro i); try tauto; try lra; try (destruct Hr as [[]|Hr]; discriminate); auto.
          destruct Hr as [Hr|Hr]; [left; lra|]. injection Hr as <-. destruct Hl as [Hl|Hl]; [left; auto|right; now f_equal]. }
        apply Pos in Hm. pose proof (Rmin_r r (-1)). lra.
      - destruct (Rle_dec 0 (toR a)) as [L|L]; [destruct L; [left; auto|right; now f_equal]|]. exfalso.
        assert (Hm : exists r, r < 0 /\ iv_mem (Fin r) i).
        { unfold iv_mem. rewrite Ea. simpl. destruct (iv_b i) as [|c|] eqn:Eb; simpl in Wb; [tauto| |].
          - exists ((toR a + Rmin 0 (toR c)) / 2). pose proof (Rmin_l 0 (toR c)). pose proof (Rmin_r 0 (toR c)). assert (toR a < Rmin 0 (toR c)) by (unfold Rmin; destruct (Rle_dec 0 (toR c)); lra).
            split; [lra|]. unfold ele, elt; simpl. destruct (iv_lo i), (iv_ro i); split; try left; lra.
          - exists (toR a / 2). split; [lra|]. rewrite Wr by auto. unfold ele, elt; simpl. destruct (iv_lo i); split; try left; auto; lra. }
        destruct Hm as (r & Hr & Hm). apply Pos in Hm. lra.
      - now left.
Qed.

Lemma disc_int : forall (N : numsys) (S : logsys) (D : distsys N S) (dlaw : dist D -> (fval -> R) -> R) d disc (supp : interval N), (disc = true -> disc_supp dlaw d supp) -> disc = true -> int_supp supp.
Proof. intros N S D dlaw d disc supp H E. destruct (H E) as (A & B & _). now split. Qed.
Lemma disc_pos : forall (N : numsys) (S : logsys) (D : distsys N S) (dlaw : dist D -> (fval -> R) -> R) d disc (supp : interval N), (disc = true -> disc_supp dlaw d supp) -> disc = true ->
  ele (Fin 0) (eR (iv_a supp)) \/ dlaw d (ind above_zero) = 1.
Proof. intros N S D dlaw d disc supp H E. now destruct (H E) as (_ & _ & A). Qed.
Section Real.
  Context {N : numsys} {S : logsys} {D : distsys N S}.
  Context (dlaw : dist D -> (fval -> R) -> R).
  Context (disc : bool) (d : dist D) (supp : interval N) (cond : bool).
  Context (W1 : wf_iv supp) (W2 : disc = true -> int_supp supp) (W3 : dist_ok dlaw disc d)
    (W4 : if cond then 0 < dlaw d (ind (in_iv supp)) else dlaw d (ind (in_iv supp)) = 1).
  Notation B := (dlaw d).
  Notation I := (real_law dlaw d supp cond).
  Notation LB := (d_law _ _ _ W3).
  Lemma real_I_law : law I.
  Proof. apply real_law_law; [exact LB|exact W4]. Qed.
  Notation LI := real_I_law.
  Lemma B_law : law B.
  Proof. exact LB. Qed.
  Local Hint Resolve B_law real_I_law : core.
  Ltac case_bool b E := destruct (Bool.bool_dec b true) as [E|E]; [|apply Bool.not_true_is_false in E].
  Ltac case_cond E := let H := fresh in pose proof W4 as H; destruct cond eqn:E.

  Lemma null_cut : forall i : interval N, wf_iv i -> B (ind (fun v => ~ cuts i (low disc i) (high disc i) v)) = 0.
  Proof.
    intros i Wi. case_bool disc Ed; rewrite Ed.
    - apply (law_null_sub LB (fun v => ~ is_integer v)); [apply (law_full LB), (d_int _ _ _ W3); auto|].
      intros v H K. apply H. now apply cuts_disc.
    - apply (law_null_sub LB (fun v => (exists c, iv_a i = Fin c /\ v = FNum (toR c)) \/ (exists c, iv_b i = Fin c /\ v = FNum (toR c)))).
      + apply (law_null_or LB).
        * destruct (iv_a i) as [|c|]; try (apply (law_null LB (fun _ => False)); auto with bnd; [rewrite (law_ext (I:=B) _ (fun _ => 0)); [apply (law_const LB)|intro; now apply ind_false]|];
            intros v _; apply ind_false; intros (c' & E & _); discriminate).
          rewrite (ind_iff _ _ (eq (FNum (toR c)))); [now apply (d_cont _ _ _ W3)|].
          intro v. split; [intros (c' & E & ->); congruence|intros <-; eauto].
        * destruct (iv_b i) as [|c|]; try (apply (law_null LB (fun _ => False)); auto with bnd; [rewrite (law_ext (I:=B) _ (fun _ => 0)); [apply (law_const LB)|intro; now apply ind_false]|];
            intros v _; apply ind_false; intros (c' & E & _); discriminate).
          rewrite (ind_iff _ _ (eq (FNum (toR c)))); [now apply (d_cont _ _ _ W3)|].
          intro v. split; [intros (c' & E & ->); congruence|intros <-; eauto].
      + intros v H. apply Classical_Prop.NNPP. intro K. apply H. apply cuts_cont; auto. intros c [Hc|Hc] ->; apply K; eauto.
  Qed.
  (** the values that matter *)
  Definition usual (v : fval) : Prop := cuts supp (low disc supp) (high disc supp) v /\ (disc = true -> is_integer v).
  Lemma null_usual : B (ind (fun v => ~ usual v)) = 0.
  Proof.
    apply (law_null_sub LB (fun v => ~ cuts supp (low disc supp) (high disc supp) v \/ ~ (disc = true -> is_integer v))).
    - apply (law_null_or LB); [now apply null_cut|]. case_bool disc Ed.
      + rewrite (ind_iff _ _ (fun v => ~ is_integer v)) by (intro; tauto). apply (law_full LB), (d_int _ _ _ W3); auto.
      + rewrite (law_ext (I:=B) _ (fun _ => 0)); [apply (law_const LB)|]. intro v. apply ind_false. intro H. apply H. congruence.
    - intros v H. unfold usual in H. tauto.
  Qed.
  Lemma I_null : forall Z, B (ind Z) = 0 -> I (ind Z) = 0.
  Proof.
    intros Z H. unfold real_law. destruct cond; auto. rewrite (law_null LB Z (fun v => ind Z v * ind (in_iv supp) v)); auto with bnd; [unfold Rdiv; ring|].
    intros v Hv. rewrite (ind_false _ Z) by auto. ring.
  Qed.
  Lemma I_supp : I (ind (fun v => ~ in_iv supp v)) = 0.
  Proof.
    unfold real_law. destruct cond.
    - rewrite (law_ext (I:=B) _ (fun _ => 0)); [rewrite (law_const LB); unfold Rdiv; ring|]. intro v. rewrite ind_not. unfold ind. destruct (dec (in_iv supp v)); ring.
    - now apply (law_full LB).
  Qed.
  Lemma supp_ends : eR (esub_bool (leaf_xl disc supp) disc) = low disc supp /\ eR (leaf_xu disc supp) = high disc supp.
  Proof. now apply support_ends. Qed.
  Lemma cdf_B : forall x, toP (logcdf d x) = B (ind (at_most (eR x))).
  Proof. exact (d_cdf _ _ _ W3). Qed.
  Lemma at_most_le : forall J x y, law J -> ele x y -> J (ind (at_most x)) <= J (ind (at_most y)).
  Proof.
    intros J x y LJ H. apply (law_mono LJ); auto with bnd. intro v. unfold ind. pose proof (at_most_mono x y v H).
    destruct (dec (at_most x v)), (dec (at_most y v)); try lra; tauto.
  Qed.
  Lemma logFl_B : toP (leaf_logFl disc d supp) = B (ind (at_most (low disc supp))).
  Proof. unfold leaf_logFl. rewrite cdf_B. now rewrite (proj1 supp_ends). Qed.
  Lemma logZ_ok : exists z, leaf_logZ disc d supp = Ok z /\ toP z = B (ind (in_iv supp)).
  Proof.
    unfold leaf_logZ. destruct (ldiff_ok S (logcdf d (leaf_xu disc supp)) (leaf_logFl disc d supp)) as (z & E & Hz).
    - rewrite logFl_B, cdf_B, (proj2 supp_ends). apply at_most_le; auto. now apply low_high.
    - exists z. split; auto. rewrite Hz, logFl_B, cdf_B, (proj2 supp_ends). symmetry. apply cut_prob; auto. { now apply null_cut. } now apply low_high.
  Qed.
  (** xl in terms of [low] *)
  Lemma xl_low : ele (low disc supp) (eR (leaf_xl disc supp)) /\
    (disc = true -> forall r z, eR (leaf_xl disc supp) = Fin r -> IZR z < r -> at_most (low disc supp) (FNum (IZR z))).
  Proof.
    rewrite <- (proj1 supp_ends). split.
    - unfold esub_bool. destruct disc; [|right; auto]. destruct (leaf_xl true supp) as [|c|]; simpl; try (right; reflexivity). left. rewrite nadd_ok, (nint_ok N). unfold elt. lra.
    - intros -> r z. destruct (W2 eq_refl) as (Ia & _). unfold leaf_xl. simpl. destruct (iv_a supp) as [|c|]; simpl; try (destruct (iv_lo supp); discriminate).
      simpl in Ia. destruct Ia as (k & Hk). rewrite (ntrunc_floor c) by (simpl; eauto). intros E H. destruct (iv_lo supp); simpl in *; injection E as <-; apply at_most_num; simpl.
      + rewrite !nadd_ok, !(nint_ok N) in *. assert (z < nfloor c + 1)%Z by (apply lt_IZR; rewrite plus_IZR; lra). assert (IZR z <= IZR (nfloor c)) by (apply IZR_le; lia). lra.
      + rewrite !nadd_ok, !(nint_ok N) in *. apply lt_IZR in H. assert (IZR z <= IZR (nfloor c - 1)) by (apply IZR_le; lia). rewrite minus_IZR in *. lra.
  Qed.
  Lemma below_xl : forall (x : ext (num N)) v, elt (eR x) (eR (leaf_xl disc supp)) -> usual v -> at_most (eR x) v -> at_most (low disc supp) v.
  Proof.
    intros x v H (C & Iv) K. destruct xl_low as (E & F). pose proof (proj1 supp_ends) as G. case_bool disc Ed; rewrite Ed in *.
    - destruct (Iv eq_refl) as (z & ->). destruct (eR (leaf_xl true supp)) as [|r|] eqn:Ex; [destruct (eR x); simpl in H; tauto| |].
      + apply (F eq_refl r z eq_refl). apply at_most_num in K. destruct (eR x) as [|y|]; simpl in *; try tauto. lra.
      + unfold esub_bool in G. destruct (leaf_xl true supp); try discriminate. simpl in G. rewrite <- G. now apply at_most_num.
    - rewrite <- G. simpl. apply (at_most_mono (eR x)); auto. now left.
  Qed.
  Lemma logcdf_ok : forall x, exists p, leaf_logcdf disc d supp cond x = Ok p /\ toP p = I (ind (at_most (eR x))).
  Proof.
    intro x. unfold leaf_logcdf, real_law. destruct cond eqn:Ec; simpl; [|eexists; split; [reflexivity|apply cdf_B]].
    destruct (eltb (leaf_xu disc supp) x) eqn:E1.
    - apply eltb_elt in E1. rewrite (proj2 supp_ends) in E1. eexists. split; [reflexivity|]. rewrite lzero_ok.
      rewrite (law_as LB (fun v => ~ usual v) _ (ind (in_iv supp)) null_usual); auto with bnd; [field; lra|].
      intros v Hv. assert (U : usual v) by tauto. destruct U as (U & _). unfold cuts in U. pose proof (at_most_mono (high disc supp) (eR x) v (or_introl E1)).
      unfold ind. destruct (dec (at_most (eR x) v)), (dec (in_iv supp v)); try lra; tauto.
    - destruct (eltb x (leaf_xl disc supp)) eqn:E2.
      + apply eltb_elt in E2. eexists. split; [reflexivity|]. rewrite lninf_ok.
        rewrite (law_null LB (fun v => ~ usual v) (fun v => ind (at_most (eR x)) v * ind (in_iv supp) v) null_usual); auto with bnd; [unfold Rdiv; ring|].
        intros v Hv. assert (U : usual v) by tauto. pose proof (below_xl x v E2 U). destruct U as (U & _). unfold cuts in U.
        unfold ind. destruct (dec (at_most (eR x) v)), (dec (in_iv supp v)); try lra; tauto.
      + assert (O1 : ele (eR x) (high disc supp)). { rewrite <- (proj2 supp_ends). now apply eltb_ele. }
        assert (O2 : ele (low disc supp) (eR x)).
        { apply (ele_trans _ _ _ (proj1 xl_low)). now apply eltb_ele. }
        destruct (ldiff_ok S (logcdf d x) (leaf_logFl disc d supp)) as (p & Ep & Hp).
        { rewrite logFl_B, cdf_B. now apply at_most_le. }
        destruct logZ_ok as (z & Ez & Hz). rewrite Ep. cbn [bind]. rewrite Ez. cbn [bind]. eexists. split; [reflexivity|].
        rewrite lsub_ok by (rewrite Hz; exact W4). rewrite Hz, Hp, logFl_B, cdf_B. f_equal. rewrite <- (law_minus LB) by auto with bnd.
        apply (law_as LB (fun v => ~ usual v) _ _ null_usual); auto with bnd.
        intros v Hv. assert (U : usual v) by tauto. destruct U as (U & _). unfold cuts in U.
        pose proof (at_most_mono (eR x) _ v O1). pose proof (at_most_mono _ (eR x) v O2).
        unfold ind. destruct (dec (at_most (eR x) v)), (dec (at_most (low disc supp) v)), (dec (in_iv supp v)); try lra; tauto.
  Qed.
  (** a distribution on the positive numbers does not see which way int() rounds negative numbers *)
  Notation positive := (B (ind above_zero) = 1).
  Lemma trunc_neg : forall c : num N, ~ rounds (Fin c) -> (ntrunc c <= 0)%Z /\ (nfloor c <= 0)%Z.
  Proof.
    intros c H. unfold ntrunc. destruct (nltb c (nint 0)) eqn:E.
    - apply nltb_ok in E. rewrite nint_ok in E. pose proof (nfloor_ok N (nopp c)) as (_ & K). rewrite nopp_ok in K. pose proof (nfloor_ok N c) as (K' & _). split.
      + assert (0 < IZR (nfloor (nopp c) + 1)) by (rewrite plus_IZR; lra). apply lt_IZR in H0. lia.
      + assert (IZR (nfloor c) < 0) by lra. apply lt_IZR in H0. lia.
    - exfalso. apply H. left. apply Rnot_lt_le. intro K. assert (nltb c (nint 0) = true) by (apply nltb_ok; rewrite nint_ok; exact K). congruence.
  Qed.
  Lemma low_positive : forall J z z', law J -> J (ind above_zero) = 1 -> (z <= 0)%Z -> (z' <= 0)%Z -> J (ind (at_most (Fin (IZR z)))) = J (ind (at_most (Fin (IZR z')))).
  Proof.
    intros J z z' LJ P Hz Hz'. apply (law_as LJ (fun v => ~ above_zero v)); auto with bnd; [now apply (law_full LJ)|]. intros v Hv. assert (K : above_zero v) by tauto. destruct K as (r & -> & Hr).
    apply IZR_le in Hz, Hz'. apply ind_eq. rewrite !at_most_num. lra.
  Qed.
  Lemma I_positive : positive -> I (ind above_zero) = 1.
  Proof.
    intros P. rewrite <- (law_one LI). apply (law_as LI (fun v => ~ above_zero v)); auto with bnd; [|intros v Hv; apply ind_true; tauto]. apply I_null. now apply (law_full LB).
  Qed.
  Lemma interval_ends_pos : forall (i : interval N) ol orr, wf_iv i -> positive ->
    (if negb (iv_lo i) then int_or_isinf_neg (iv_a i) else Ok false) = Ok ol ->
    (if iv_ro i then int_or_isinf_pos (iv_b i) else Ok false) = Ok orr ->
    I (ind (at_most (eR (esub_bool (float_to_int (iv_a i)) ol)))) = I (ind (at_most (low true i))) /\
    I (ind (at_most (eR (esub_bool (float_to_int (iv_b i)) orr)))) = I (ind (at_most (high true i))).
  Proof.
    intros i ol orr W P Ha Hb. apply I_positive in P. split; unfold low, high.
    - destruct (iv_a i) as [|c|]; [destruct ol; reflexivity| |destruct ol; reflexivity]. simpl float_to_int. destruct (dec (rounds (Fin c))) as [R|R].
      + rewrite (ntrunc_floor c R). destruct (iv_lo i); simpl in *.
        * injection Ha as <-. simpl. now rewrite nint_ok, Z.sub_0_r.
        * injection Ha as <-. destruct (is_int c); simpl; [now rewrite toR_sub1|now rewrite nint_ok, Z.sub_0_r].
      + destruct (trunc_neg c R) as (T1 & T2). destruct ol; simpl; [rewrite toR_sub1|rewrite nint_ok]; apply (low_positive I); auto; destruct (negb (iv_lo i) && is_int c); lia.
    - destruct (iv_b i) as [|c|]; [destruct orr; reflexivity| |destruct orr; reflexivity]. simpl float_to_int. destruct (dec (rounds (Fin c))) as [R|R].
      + rewrite (ntrunc_floor c R). destruct (iv_ro i); simpl in *.
        * injection Hb as <-. destruct (is_int c); simpl; [now rewrite toR_sub1|now rewrite nint_ok, Z.sub_0_r].
        * injection Hb as <-. simpl. now rewrite nint_ok, Z.sub_0_r.
      + destruct (trunc_neg c R) as (T1 & T2). destruct orr; simpl; [rewrite toR_sub1|rewrite nint_ok]; apply (low_positive I); auto; destruct (iv_ro i && is_int c); lia.
  Qed.
  Lemma interval_ok : forall i : interval N, wf_iv i -> (disc = true -> (rounds (iv_a i) /\ rounds (iv_b i)) \/ positive) ->
    exists p, leaf_logprob_interval disc d supp cond i = Ok p /\ toP p = I (ind (in_iv i)).
  Proof.
    intros i Wi Ri. unfold leaf_logprob_interval.
    assert (E : exists l u, (if disc then
                do ol <- (if negb (iv_lo i) then int_or_isinf_neg (iv_a i) else Ok false);
                do or_ <- (if iv_ro i then int_or_isinf_pos (iv_b i) else Ok false);
                Ok (esub_bool (float_to_int (iv_a i)) ol, esub_bool (float_to_int (iv_b i)) or_)
              else Ok (iv_a i, iv_b i)) = Ok (l, u) /\ I (ind (at_most (eR l))) = I (ind (at_most (low disc i))) /\ I (ind (at_most (eR u))) = I (ind (at_most (high disc i)))).
    { case_bool disc Ed; rewrite Ed; [|exists (iv_a i), (iv_b i); repeat split; unfold low, high; destruct (iv_a i), (iv_b i); reflexivity].
      destruct (wf_iv_ends i Wi) as (Na & Nb).
      assert (exists ol, (if negb (iv_lo i) then int_or_isinf_neg (iv_a i) else Ok false) = Ok ol) as (ol & Eo).
      { destruct (negb (iv_lo i)); [|eauto]. destruct (iv_a i); simpl; eauto; tauto. }
      assert (exists o, (if iv_ro i then int_or_isinf_pos (iv_b i) else Ok false) = Ok o) as (orr & Er).
      { destruct (iv_ro i); [|eauto]. destruct (iv_b i); simpl; eauto; tauto. }
      rewrite Eo. cbn [bind]. rewrite Er. cbn [bind]. eexists _, _. split; [reflexivity|]. destruct (Ri Ed) as [(Ra & Rb)|P].
      - destruct (interval_ends i ol orr Wi Ra Rb Eo Er) as (-> & ->). auto.
      - apply interval_ends_pos; auto. }
    destruct E as (l & u & E & El & Eu). rewrite E. cbn [bind fst snd].
    destruct (logcdf_ok l) as (fl & E1 & H1). destruct (logcdf_ok u) as (fu & E2 & H2). rewrite E1. cbn [bind]. rewrite E2. cbn [bind].
    assert (O : ele (low disc i) (high disc i)) by now apply low_high.
    destruct (ldiff_ok S fu fl) as (p & Ep & Hp); [rewrite H1, H2, El, Eu; now apply at_most_le|]. exists p. split; auto.
    rewrite Hp, H1, H2, El, Eu. symmetry. apply cut_prob; auto. apply I_null. now apply null_cut.
  Qed.
  Lemma point_ok : forall a, disc = true -> exists p, leaf_logpdf disc d supp cond (Fin a) = Ok p /\ toP p = I (ind (eq (FNum (toR a)))).
  Proof.
    intros a Ed. unfold leaf_logpdf, real_law. destruct cond eqn:Ec; cbn [negb]; [|eexists; split; [reflexivity|now apply (d_pmf _ _ _ W3)]].
    assert (G : (if disc then eltb (Fin a) (leaf_xl disc supp) || eltb (leaf_xu disc supp) (Fin a) else negb (iv_contains (Fin a) supp)) =
      eltb (Fin a) (leaf_xl disc supp) || eltb (leaf_xu disc supp) (Fin a)) by (rewrite Ed; reflexivity).
    rewrite G. clear G. destruct (eltb (Fin a) (leaf_xl disc supp) || eltb (leaf_xu disc supp) (Fin a)) eqn:E.
    - eexists. split; [reflexivity|]. rewrite lninf_ok.
      rewrite (law_null LB (fun v => ~ usual v) (fun v => ind (eq (FNum (toR a))) v * ind (in_iv supp) v) null_usual); auto with bnd; [unfold Rdiv; ring|].
      intros v Hv. assert (U : usual v) by tauto. unfold ind. destruct (dec (FNum (toR a) = v)) as [<-|]; [|ring].
      destruct (dec (in_iv supp (FNum (toR a)))) as [K|]; [|ring]. exfalso. apply orb_true_iff in E. destruct E as [E|E]; apply eltb_elt in E.
      + pose proof (below_xl (Fin a) _ E U) as G. destruct U as (U & _). apply U in K. destruct K as (_ & K). apply K, G, at_most_num. simpl. lra.
      + destruct U as (U & _). apply U in K. destruct K as (K & _). rewrite <- (proj2 supp_ends) in K. apply at_most_num in K. destruct (eR (leaf_xu disc supp)); simpl in *; lra.
    - apply orb_false_iff in E. destruct E as (E1 & E2). destruct logZ_ok as (z & Ez & Hz). rewrite Ez. cbn [bind]. eexists. split; [reflexivity|].
      rewrite lsub_ok by (rewrite Hz; exact W4). rewrite Hz. f_equal. rewrite (d_pmf _ _ _ W3) by auto.
      apply (law_as LB (fun v => ~ usual v) _ _ null_usual); auto with bnd. intros v Hv. assert (U : usual v) by tauto.
      unfold ind. destruct (dec (FNum (toR a) = v)) as [<-|]; [|ring]. destruct (dec (in_iv supp (FNum (toR a)))) as [|K]; [ring|]. exfalso. apply K. apply U. split.
      + rewrite <- (proj2 supp_ends). apply at_most_num. destruct (leaf_xu disc supp) as [|c|]; simpl in *; auto; try discriminate.
        destruct (Rle_dec (toR a) (toR c)); auto. assert (nltb c a = true) by (apply nltb_ok; lra). congruence.
      + intro G. rewrite <- (proj1 supp_ends) in G. rewrite Ed in *. apply at_most_num in G. destruct (leaf_xl true supp) as [|c|]; simpl in *; auto; try discriminate.
        rewrite nadd_ok, nint_ok in G. assert (nltb a c = true) by (apply nltb_ok; lra). congruence.
  Qed.
  Lemma mapM_ok : forall A C (f : A -> res C) (Q : A -> C -> Prop) l, (forall a, In a l -> exists c, f a = Ok c /\ Q a c) -> exists r, mapM f l = Ok r /\ Forall2 Q l r.
  Proof.
    induction l as [|a l IH]; intros H; simpl; [eauto|]. destruct (H a (or_introl eq_refl)) as (c & -> & Hc). cbn [bind].
    destruct IH as (r & -> & Hr); [intros; apply H; now right|]. cbn [bind]. eauto.
  Qed.
  Lemma Forall2_sum : forall A (f : A -> R) l (r : list (lg S)), Forall2 (fun a p => toP p = f a) l r -> sumR (map toP r) = sumR (map f l).
  Proof. induction 1; simpl; congruence. Qed.
  Definition finite (x : ext (num N)) : Prop := exists a, x = Fin a.
  (** the pieces of the sets for which probabilities are computed *)
  Definition piece (b : bset N) : Prop :=
    wf_b b /\ match b with
              | BNom _ _ => False
              | BReal vs => Forall finite vs
              | BInt i => disc = true -> (rounds (iv_a i) /\ rounds (iv_b i)) \/ positive
              end.
  Lemma finite_ind : forall vs v, NoDup (map eR vs) -> Forall finite vs ->
    ind (fun v => fm v (PB (N:=N) (BReal vs))) v = sumR (map (fun x => ind (fun v => exists r, eR x = Fin r /\ v = FNum r) v) vs).
  Proof.
    intros vs v Nd Fi. rewrite ind_FOP.
    - apply ind_eq. unfold fm. destruct v as [r|s]; simpl.
      + split; [intros (y & Hy & E); eauto 6|intros (y & Hy & r' & E & F); injection F as ->; eauto].
      + split; [tauto|intros (y & Hy & r' & E & F); discriminate].
    - apply NoDup_FOP in Nd. apply FOP_map in Nd. eapply FOP_weaken; [|exact Nd]. intros x y _ _ H ((r & E & ->) & r' & E' & F). injection F as ->. congruence.
  Qed.
  Lemma finite_ok : forall vs, piece (BReal vs) -> exists p, leaf_logprob_finite disc d supp cond vs = Ok p /\ toP p = I (ind (fun v => fm v (PB (N:=N) (BReal vs)))).
  Proof.
    intros vs ((Nd & Ne) & Fi). unfold leaf_logprob_finite.
    assert (Sm : I (ind (fun v => fm v (PB (N:=N) (BReal vs)))) = sumR (map (fun x => I (ind (fun v => exists r, eR x = Fin r /\ v = FNum r))) vs)).
    { rewrite <- (law_sum LI) by auto with bnd. apply (law_ext (I:=I)). intro v. now apply finite_ind. }
    case_bool disc Ed; rewrite Ed.
    - destruct (mapM_ok _ _ (leaf_logpdf true d supp cond) (fun x p => toP p = I (ind (fun v => exists r, eR x = Fin r /\ v = FNum r))) (sort eleb vs)) as (ps & E & F).
      { intros x Hx. apply sort_In in Hx. rewrite Forall_forall in Fi. destruct (Fi x Hx) as (a & ->). destruct (point_ok a Ed) as (p & Ep & Hp). rewrite Ed in Ep. exists p. split; auto.
        rewrite Hp. f_equal. apply ind_iff. intro v. simpl. split; [intros <-; eauto|intros (r & G & ->); congruence]. }
      rewrite E. cbn [bind]. apply Forall2_sum in F as F'. rewrite (sumR_perm_map _ _ _ _ (Permutation_sym (sort_perm eleb vs))) in F'. rewrite Sm, <- F'.
      assert (Nps : ps <> []). { intros ->. inversion F as [G|]. assert (K := sort_perm eleb vs). rewrite <- G in K. apply Permutation_sym in K. now apply Permutation_nil in K. }
      destruct ps as [|p [|q ps]]; [tauto|eexists; split; [reflexivity|simpl; ring]|]. destruct (lse_ok S (p :: q :: ps)) as (r & Er & Hr); [discriminate|]. exists r. split; auto.
    - eexists. split; [reflexivity|]. rewrite lninf_ok, Sm. symmetry. apply sumR_zero. intros x Hx. apply I_null. rewrite Forall_forall in Fi. destruct (Fi x Hx) as (a & ->).
      rewrite (ind_iff _ _ (eq (FNum (toR a)))); [now apply (d_cont _ _ _ W3)|]. intro v. simpl. split; [intros (r & G & ->); congruence|intros <-; eauto].
  Qed.
  Lemma basic_ok : forall b, piece b -> exists p, leaf_logprob_basic disc d supp cond b = Ok p /\ toP p = I (ind (fun v => fm v (PB b))).
  Proof.
    intros b P. destruct b as [vs f|vs|i]; [destruct P as (_ & []) | now apply finite_ok|]. destruct P as (Wi & Ri). now apply interval_ok.
  Qed.
  Lemma union_ind : forall (u : list (bset N)) v, ForallOrdPairs disjoint_b u -> ind (fun v => fm v (PUnion u)) v = sumR (map (fun b => ind (fun v => fm v (PB b)) v) u).
  Proof.
    intros u v H. rewrite ind_FOP.
    - apply ind_eq. unfold fm. simpl. tauto.
    - eapply FOP_weaken; [|exact H]. intros b c _ _ K (K1 & K2). exact (K _ K1 K2).
  Qed.
  Definition pieces (s : pset N) : Prop := match s with PEmpty => True | PB b => piece b | PUnion u => Forall piece u end.
  Lemma values_ok : forall s, wf s -> pieces s -> exists p, leaf_logprob_values disc d supp cond s = Ok p /\ toP p = I (ind (fun v => fm v s)).
  Proof.
    intros [|b|u] Ws Ps; simpl.
    - eexists. split; [reflexivity|]. rewrite lninf_ok. symmetry. rewrite (law_ext (I:=I) _ (fun _ => 0)); [apply (law_const LI)|]. intro v. apply ind_false. intro H; exact H.
    - now apply basic_ok.
    - destruct (mapM_ok _ _ (leaf_logprob_basic disc d supp cond) (fun b p => toP p = I (ind (fun v => fm v (PB b)))) u) as (ps & E & F).
      { intros b Hb. simpl in Ps. rewrite Forall_forall in Ps. apply basic_ok; auto. }
      rewrite E. cbn [bind]. destruct Ws as (_ & Ln & _ & _ & Dj). destruct (lse_ok S ps) as (r & Er & Hr).
      { intros ->. inversion F; subst. simpl in Ln. lia. }
      exists r. split; auto. rewrite Hr. apply Forall2_sum in F. rewrite F. rewrite <- (law_sum LI) by auto with bnd. apply (law_ext (I:=I)). intro v. symmetry. now apply union_ind.
  Qed.
  (** sets inside the support have such pieces *)
  Lemma inside_piece : (disc = true -> ele (Fin 0) (eR (iv_a supp)) \/ positive) -> forall b, wf_b b -> real_b b -> (forall v, bmem v b -> bmem v (BInt supp)) -> piece b.
  Proof.
    intros W0 [vs f|vs|i] Wb Rb Sb; split; auto.
    - apply Forall_forall. intros x Hx. assert (K : bmem (RNum (eR x)) (BInt supp)) by (apply Sb; simpl; eauto). destruct x as [|a|]; [|exists a; auto|]; exfalso.
      + destruct K as (K & _). destruct W1 as (_ & L1 & _). unfold ele, elt in K. destruct (iv_a supp) as [|c|]; simpl in *.
        * rewrite L1 in K by auto. auto.
        * destruct (iv_lo supp); intuition discriminate.
        * destruct (iv_lo supp); intuition discriminate.
      + destruct K as (_ & K). destruct W1 as (_ & _ & L1). unfold ele, elt in K. destruct (iv_b supp) as [|c|]; simpl in *.
        * destruct (iv_ro supp); intuition discriminate.
        * destruct (iv_ro supp); intuition discriminate.
        * rewrite L1 in K by auto. auto.
    - intro Ed. destruct (W0 Ed) as [P0|P0]; [left|now right].
      assert (Ea : ele (Fin 0) (eR (iv_a i))) by (apply (sub_nonneg supp); auto).
      destruct Wb as (Wb & _). unfold rounds, ele, elt in *. destruct (iv_a i) as [|a|]; simpl in *; try tauto.
      + destruct Ea as [[]|Ea]; discriminate.
      + assert (0 <= toR a) by (destruct Ea as [Ea|Ea]; [lra|injection Ea; lra]). split; [auto|]. destruct (iv_b i) as [|c|]; simpl in *; auto. left. lra.
  Qed.
  Lemma inside_pieces : (disc = true -> ele (Fin 0) (eR (iv_a supp)) \/ positive) -> forall s, wf s -> real_set s -> (forall v, mem v s -> mem v (PB (BInt supp))) -> pieces s.
  Proof.
    intros W0 [|b|u] Ws Rs Sb; simpl; auto.
    - apply inside_piece; auto.
    - destruct Ws as (Wb & _). simpl in Rs. rewrite Forall_forall in *. intros b Hb. apply inside_piece; auto. intros v Hv. apply (Sb v). simpl. eauto.
  Qed.
  Lemma real_solved : (disc = true -> ele (Fin 0) (eR (iv_a supp)) \/ positive) -> forall io v r x env, wf v -> pand io (PB (BInt supp)) v = Ok r ->
    wf r /\ pieces r /\ real_set r /\ (forall u, fm u r <-> in_iv supp u /\ fm u v) /\
    exists p, leaf_solved_logprob io (RealLeaf disc x d supp cond env) v = Ok p /\ toP p = I (ind (fun u => fm u v)).
  Proof.
    intros W0 io v r x env Wv E. destruct (pand_f io _ _ _ (W1 : wf (PB (BInt supp))) Wv E) as (Wr & Fr & Rr & Mr).
    assert (Rs : real_set r) by (apply Rr; left; exact Logic.I).
    assert (Ps : pieces r) by (apply inside_pieces; auto; intros u Hu; now apply Mr). repeat split; auto; try (apply Fr; auto); try (intros (K1 & K2); apply Fr; auto).
    destruct (values_ok r Wr Ps) as (p & Ep & Hp). exists p. split.
    - cbn [leaf_solved_logprob]. rewrite E. exact Ep.
    - rewrite Hp. apply (law_as LI (fun v => ~ in_iv supp v) _ _ I_supp); auto with bnd. intros u Hu. apply ind_eq. rewrite Fr.
      assert (in_iv supp u) by tauto. unfold in_iv in *. tauto.
  Qed.
End Real.
