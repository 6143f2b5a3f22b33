(** Terms and conditions of the source: their translation has the same value. *)
From Coq Require Import List Bool String Reals Lra Lia ZArith Classical.
From Verif Require Import Base Num Sets SetSpec SetIv SetProofs SetOr SetOps SetAlg SetBuilt
  Poly Trans TransSpec TransFacts PolyProofs InvProofs InvMain EvProofs ArithProofs
  Dnf DnfSpec DnfProofs DnfUnion Logs Spe SpeSpec SpeFacts SpeRect LeafProofs LeafEvents MemoProofs NormSorts SpeOps Prog ProgSpec ProgEvents Source SourceSpec.
Import ListNotations.
Local Open Scope R_scope.

Section Expr.
  Context {N : numsys} (io : iterorder N) (po : polyoracle N) (fuel : nat).
  Notation tr := (tr N).
  Notation expr := (expr N).
  Notation env := (env (N:=N)).
  Notation pyval := (pyval (N:=N)).
  Notation pset := (pset N).
  Context (call : string -> list pyval -> list (string * pyval) -> res pyval).
  Notation peval := (peval io po fuel call).
  Notation seval := (seval peval).
  Notation term := (term peval).
  Notation cond := (cond peval).
  Notation numeric := (numeric peval).

  (** ** Terms *)
  Definition flat (t : tr) : Prop := match t with TPiece _ | EBasic _ _ _ | EOr _ | EAnd _ => False | _ => True end.
  Lemma flat_event : forall t, flat t -> is_event t = false.
  Proof. destruct t; simpl; tauto. Qed.
  Lemma Poly_flat : forall t cs (r : tr), Poly_ t cs = Ok r -> flat r.
  Proof. intros t cs r H. unfold Poly_ in H. inv_bind H. now injection H as <-. Qed.
  Lemma mul_num_flat : forall (t : tr) c r, mul_num t c = Ok r -> flat r.
  Proof. intros t c r H. unfold mul_num in H. destruct (polyify t). eapply Poly_flat; eauto. Qed.
  Lemma add_num_flat : forall (t : tr) c r, add_num t c = Ok r -> flat r.
  Proof. intros t c r H. unfold add_num in H. destruct (polyify t) as (u, [|d cs]); [discriminate|]. eapply Poly_flat; eauto. Qed.
  Lemma add_poly_flat : forall (t u r : tr), add_poly t u = Ok r -> flat r.
  Proof.
    intros t u r H. unfold add_poly in H. destruct (polyify t), (polyify u). destruct (negb _); [discriminate|]. destruct (_ || _)%bool; [discriminate|]. eapply Poly_flat; eauto.
  Qed.
  Lemma t_add_flat : forall (t u r : tr), flat t -> t_add io po fuel t u = Ok r -> flat r.
  Proof. intros t u r F H. destruct t; try tauto; eapply add_poly_flat; eauto. Qed.
  Lemma t_mul_flat : forall (t u r : tr), flat t -> flat u -> t_mul io po fuel t u = Ok r -> flat r.
  Proof.
    intros t u r F G H. unfold t_mul in H. rewrite (flat_event t), (flat_event u) in H by auto. unfold mul_poly in H. destruct (polyify t), (polyify u). destruct (negb _); [discriminate|]. eapply Poly_flat; eauto.
  Qed.
  Lemma t_sub_flat : forall (t u r : tr), flat t -> t_sub io po fuel t u = Ok r -> flat r.
  Proof. intros t u r F H. unfold t_sub in H. inv_bind H. eapply t_add_flat; eauto. Qed.
  Lemma t_neg_flat : forall (t r : tr), t_neg t = Ok r -> flat r.
  Proof. intros t r H. destruct t; try (eapply mul_num_flat; exact H). eapply Poly_flat; exact H. Qed.
  Lemma rdiv_flat : forall c (t r : tr), rdiv_num c t = Ok r -> flat r.
  Proof. intros c t r H. unfold rdiv_num in H. destruct (neqb c (nint 1)); [now injection H as <-|]. eapply mul_num_flat; eauto. Qed.
  Lemma pow_int_flat : forall (t : tr) z r, pow_int t z = Ok r -> flat r.
  Proof. intros t [|p|p] r H; simpl in H; [discriminate|eapply Poly_flat; exact H|]. inv_bind H. now injection H as <-. Qed.

  Definition stands_for (g : env) (e : expr) (v : pyval) : Prop :=
    match v with
    | PTr t => good t /\ realv t /\ flat t /\ forall w x, seval g e w = Some x -> exists y, x = SV y /\ teval t w = Some y
    | _ => forall w x, seval g e w = Some x -> exists y, x = SV y /\ const v = Some y
    end.
  Lemma atom_stands : forall g e v, (forall w, seval g e w = atom (peval g e) w) ->
    (forall t, peval g e = Ok (PTr t) -> exists x, t = TId x) -> peval g e = Ok v -> stands_for g e v.
  Proof.
    intros g e v S A H. unfold stands_for. destruct v; try (intros w x Hx; rewrite S, H in Hx; simpl in Hx; try discriminate Hx; injection Hx as <-; eexists; split; reflexivity).
    destruct (A t H) as (x & ->). do 3 (split; [exact I|]). intros w y Hy. rewrite S, H in Hy. simpl in Hy. injection Hy as <-. eexists. split; reflexivity.
  Qed.
  Lemma to_int_ok : forall (c : num N) z, to_int c = Some z -> toR c = IZR z.
  Proof. intros c z H. unfold to_int in H. destruct (neqb c (nint (nfloor c))) eqn:E; [|discriminate]. injection H as <-. apply neqb_ok in E. now rewrite nint_ok in E. Qed.
  Lemma arith_pow : forall x y z r, y = IZR z -> arith BPow x y = Some r -> r = powerRZ x z /\ (x = 0 -> (0 <= z)%Z).
  Proof.
    intros x y z r -> H. unfold arith in H. destruct (Req_EM_T (IZR z) (IZR (Int_part (IZR z)))) as [E|]; [|discriminate]. apply eq_IZR in E. rewrite <- E in H.
    destruct (Req_EM_T x 0); [destruct (Z_lt_dec z 0); [discriminate|]|]; injection H as <-; split; auto; try lia. intros; contradiction.
  Qed.
  Lemma num_pow_ok : forall (a b : num N) v r, num_pow a b = Ok v -> arith BPow (toR a) (toR b) = Some r -> exists c, v = PNum c /\ toR c = r.
  Proof.
    intros a b v r H A. unfold num_pow in H. destruct (to_int b) as [z|] eqn:E.
    - apply to_int_ok in E. destruct (arith_pow _ _ z _ E A) as (-> & Z). destruct (0 <=? z)%Z eqn:L.
      + injection H as <-. eexists. split; [reflexivity|]. rewrite npow_nat_ok. apply Z.leb_le in L. destruct z; try reflexivity. lia.
      + destruct (neqb a (nint 0)) eqn:Ea; [discriminate|]. injection H as <-. eexists. split; [reflexivity|]. apply Z.leb_gt in L.
        assert (toR a <> 0). { intros Ka. enough (neqb a (nint 0) = true) by congruence. apply neqb_ok. now rewrite nint_ok. }
        rewrite ninv_ok; rewrite npow_nat_ok; [|now apply pow_nonzero]. destruct z; try lia. reflexivity.
    - unfold arith in A. destruct (Req_EM_T (toR b) (IZR (Int_part (toR b)))) as [K|]; [|discriminate]. exfalso. unfold to_int in E.
      destruct (neqb b (nint (nfloor b))) eqn:F; [discriminate|]. enough (neqb b (nint (nfloor b)) = true) by congruence. apply neqb_ok. rewrite nint_ok.
      pose proof (nfloor_ok N b) as Fl. rewrite K in Fl |- *. f_equal. destruct Fl as (F1 & F2). apply le_IZR in F1. rewrite <- plus_IZR in F2. apply lt_IZR in F2. lia.
  Qed.
  Lemma sbin_num : forall op a b x, sbin op a b = Some x -> (op <> BAnd /\ op <> BOr) ->
    exists p q r, a = Some (SV (FNum p)) /\ b = Some (SV (FNum q)) /\ arith op p q = Some r /\ x = SV (FNum r).
  Proof.
    intros op a b x H (O1 & O2). destruct op; try tauto; destruct a as [[[p|]|]|], b as [[[q|]|]|]; cbn [sbin] in H; try discriminate H;
    match type of H with option_map _ ?A = _ => destruct A as [r|] eqn:E end; try discriminate H; injection H as <-; exists p, q, r; auto.
  Qed.
  Lemma term_ok : forall g e v, term g e -> peval g e = Ok v -> stands_for g e v.
  Proof.
    intros g e. induction e; intros v T H; try (simpl in T; tauto).
    - apply atom_stands; auto. apply T.
    - injection H as <-. intros w x Hx. simpl in Hx. injection Hx as <-. eexists. split; reflexivity.
    - injection H as <-. intros w x Hx. simpl in Hx. injection Hx as <-. eexists. split; reflexivity.
    - assert (T1 : term g e1 /\ term g e2) by (destruct op; simpl in T; tauto). destruct T1 as (T1 & T2). cbn [Source.peval] in H. inv_bind H. inv_bind H. rename r into u1, r0 into u2.
      specialize (IHe1 _ T1 E). specialize (IHe2 _ T2 E0).
      assert (O : op <> BAnd /\ op <> BOr) by (destruct op; simpl in T; try tauto; split; discriminate).
      assert (Sv : forall w x, seval g (XBin op e1 e2) w = Some x -> exists p q r, seval g e1 w = Some (SV (FNum p)) /\ seval g e2 w = Some (SV (FNum q)) /\ arith op p q = Some r /\ x = SV (FNum r))
        by (intros w x Hx; cbn [SourceSpec.seval] in Hx; apply sbin_num; auto).
      destruct u1 as [t|c1|?|?|?|?|?]; destruct u2 as [u|c2|?|?|?|?|?]; try (destruct op; discriminate H).
      + (* two transforms *)
        cbn [stands_for] in IHe1, IHe2. destruct IHe1 as (G1 & R1 & F1 & V1), IHe2 as (G2 & R2 & F2 & V2).
        assert (Vals : forall w x, seval g (XBin op e1 e2) w = Some x -> exists p q r, value t w p /\ value u w q /\ arith op p q = Some r /\ x = SV (FNum r)).
        { intros w x Hx. destruct (Sv w x Hx) as (p & q & r & H1 & H2 & H3 & ->). destruct (V1 w _ H1) as (y1 & [= <-] & Y1). destruct (V2 w _ H2) as (y2 & [= <-] & Y2). exists p, q, r. auto. }
        destruct op; try discriminate H; cbn [py_bin] in H; unfold ptr in H; inv_bind H; injection H as <-.
        * assert (Np : forall l m, t = TPiece l -> u = TPiece m -> False) by (intros l m -> _; destruct F1). pose proof (t_add_ok io po fuel _ _ _ G1 R1 E1 Np) as (Gr & Rr & K). split; [auto|]. split; [auto|]. split; [exact (t_add_flat _ _ _ F1 E1)|].
          intros w x Hx. destruct (Vals w x Hx) as (p & q & s & H1 & H2 & H3 & ->). injection H3 as <-. eexists. split; [reflexivity|]. apply K. eauto.
        * pose proof (t_sub_ok io po fuel _ _ _ G1 G2 R1 R2 E1) as (Gr & Rr & K). split; [auto|]. split; [auto|]. split; [exact (t_sub_flat _ _ _ F1 E1)|].
          intros w x Hx. destruct (Vals w x Hx) as (p & q & s & H1 & H2 & H3 & ->). injection H3 as <-. eexists. split; [reflexivity|]. apply K. eauto.
        * pose proof (t_mul_ok io po fuel _ _ _ G1 G2 R1 R2 E1 (flat_event _ F1) (flat_event _ F2)) as (Gr & Rr & K). split; [auto|]. split; [auto|]. split; [exact (t_mul_flat _ _ _ F1 F2 E1)|].
          intros w x Hx. destruct (Vals w x Hx) as (p & q & s & H1 & H2 & H3 & ->). injection H3 as <-. eexists. split; [reflexivity|]. apply K. eauto.
        * exfalso. tauto.
        * exfalso. tauto.
      + (* transform and number *)
        cbn [stands_for] in IHe1, IHe2. destruct IHe1 as (G1 & R1 & F1 & V1).
        assert (Vals : forall w x, seval g (XBin op e1 e2) w = Some x -> exists p r, value t w p /\ arith op p (toR c2) = Some r /\ x = SV (FNum r)).
        { intros w x Hx. destruct (Sv w x Hx) as (p & q & r & H1 & H2 & H3 & ->). destruct (V1 w _ H1) as (y1 & [= <-] & Y1). destruct (IHe2 w _ H2) as (y2 & [= <-] & Y2). injection Y2 as <-. exists p, r. auto. }
        destruct op; try discriminate H; cbn [py_bin] in H; unfold ptr in H.
        * inv_bind H; injection H as <-. pose proof (add_num_ok _ _ _ G1 R1 E1) as (Gr & Rr & K). split; [auto|]. split; [auto|]. split; [eapply add_num_flat; eauto|].
          intros w x Hx. destruct (Vals w x Hx) as (p & s & H1 & H3 & ->). injection H3 as <-. eexists. split; [reflexivity|]. apply K. eauto.
        * inv_bind H; injection H as <-. pose proof (sub_num_ok _ _ _ G1 R1 E1) as (Gr & Rr & K). split; [auto|]. split; [auto|]. split; [eapply add_num_flat; eauto|].
          intros w x Hx. destruct (Vals w x Hx) as (p & s & H1 & H3 & ->). injection H3 as <-. eexists. split; [reflexivity|]. apply K. eauto.
        * inv_bind H; injection H as <-. pose proof (mul_num_ok _ _ _ G1 R1 E1) as (Gr & Rr & K). split; [auto|]. split; [auto|]. split; [eapply mul_num_flat; eauto|].
          intros w x Hx. destruct (Vals w x Hx) as (p & s & H1 & H3 & ->). injection H3 as <-. eexists. split; [reflexivity|]. apply K. exists p. split; [auto|lra].
        * inv_bind H; injection H as <-. pose proof (div_num_ok _ _ _ G1 R1 E1) as (Nz & Gr & Rr & K). split; [auto|]. split; [auto|].
          split; [unfold div_num in E1; destruct (neqb c2 (nint 0)); [discriminate|]; eapply mul_num_flat; eauto|].
          intros w x Hx. destruct (Vals w x Hx) as (p & s & H1 & H3 & ->). simpl in H3. destruct (Req_EM_T (toR c2) 0); [contradiction|]. injection H3 as <-. eexists. split; [reflexivity|]. apply K. eauto.
        * destruct (to_int c2) as [z|] eqn:Z; [|discriminate]. inv_bind H; injection H as <-. apply to_int_ok in Z.
          assert (K : good r /\ realv r /\ forall w p s, value t w p -> arith BPow p (toR c2) = Some s -> value r w s).
          { destruct z as [|p|p]; [discriminate|apply pow_int_pos in E1|apply pow_int_neg in E1]; auto; destruct E1 as (Gr & Rr & K); split; auto; split; auto; intros w y s H1 H3; destruct (arith_pow _ _ _ _ Z H3) as (-> & Zr); apply K; exists y.
            - split; auto.
            - split; auto. split; [|reflexivity]. intros Ey. specialize (Zr Ey). lia. }
          destruct K as (Gr & Rr & K). split; [auto|]. split; [auto|]. split; [eapply pow_int_flat; eauto|].
          intros w x Hx. destruct (Vals w x Hx) as (p & s & H1 & H3 & ->). eexists. split; [reflexivity|]. eapply K; eauto.
      + exfalso. destruct op; try discriminate H; simpl in T; tauto.
      + exfalso. destruct op; try discriminate H; simpl in T; tauto.
      + (* number and transform *)
        cbn [stands_for] in IHe1, IHe2. destruct IHe2 as (G2 & R2 & F2 & V2).
        assert (Vals : forall w x, seval g (XBin op e1 e2) w = Some x -> exists q r, value u w q /\ arith op (toR c1) q = Some r /\ x = SV (FNum r)).
        { intros w x Hx. destruct (Sv w x Hx) as (p & q & r & H1 & H2 & H3 & ->). destruct (V2 w _ H2) as (y1 & [= <-] & Y1). destruct (IHe1 w _ H1) as (y2 & [= <-] & Y2). injection Y2 as <-. exists q, r. auto. }
        destruct op; try discriminate H; cbn [py_bin] in H; unfold ptr in H.
        * inv_bind H; injection H as <-. pose proof (add_num_ok _ _ _ G2 R2 E1) as (Gr & Rr & K). split; [auto|]. split; [auto|]. split; [eapply add_num_flat; eauto|].
          intros w x Hx. destruct (Vals w x Hx) as (p & s & H1 & H3 & ->). injection H3 as <-. eexists. split; [reflexivity|]. apply K. exists p. split; [auto|lra].
        * exfalso. simpl in T. destruct T as (_ & _ & T). apply T. split; [exists c1|exists u]; auto.
        * inv_bind H; injection H as <-. pose proof (mul_num_ok _ _ _ G2 R2 E1) as (Gr & Rr & K). split; [auto|]. split; [auto|]. split; [eapply mul_num_flat; eauto|].
          intros w x Hx. destruct (Vals w x Hx) as (p & s & H1 & H3 & ->). injection H3 as <-. eexists. split; [reflexivity|]. apply K. exists p. split; [auto|lra].
        * inv_bind H; injection H as <-. pose proof (rdiv_num_ok _ _ _ G2 R2 E1) as (Gr & Rr & K). split; [auto|]. split; [auto|]. split; [eapply rdiv_flat; eauto|].
          intros w x Hx. destruct (Vals w x Hx) as (p & s & H1 & H3 & ->). simpl in H3. destruct (Req_EM_T p 0); [discriminate|]. injection H3 as <-. eexists. split; [reflexivity|]. apply K. eauto.
        * exfalso. simpl in T. destruct T as (_ & _ & T). apply T. exists u; auto.
      + (* two numbers *)
        cbn [stands_for] in IHe1, IHe2.
        assert (Vals : forall w x, seval g (XBin op e1 e2) w = Some x -> exists r, arith op (toR c1) (toR c2) = Some r /\ x = SV (FNum r)).
        { intros w x Hx. destruct (Sv w x Hx) as (p & q & r & H1 & H2 & H3 & ->). destruct (IHe2 w _ H2) as (y1 & [= <-] & Y1). destruct (IHe1 w _ H1) as (y2 & [= <-] & Y2). injection Y2 as <-. injection Y1 as <-. exists r. auto. }
        assert (Out : forall c, v = PNum c -> (forall r, arith op (toR c1) (toR c2) = Some r -> toR c = r) -> stands_for g (XBin op e1 e2) v).
        { intros c -> Hc w x Hx. destruct (Vals w x Hx) as (r & H1 & ->). apply Hc in H1. subst r. eexists. split; reflexivity. }
        destruct op; try discriminate H; cbn [py_bin] in H.
        * injection H as <-. eapply Out; [reflexivity|]. intros r [= <-]. apply nadd_ok.
        * injection H as <-. eapply Out; [reflexivity|]. intros r [= <-]. apply nsub_ok.
        * injection H as <-. eapply Out; [reflexivity|]. intros r [= <-]. apply nmul_ok.
        * destruct (neqb c2 (nint 0)) eqn:Z; [discriminate|]. injection H as <-. eapply Out; [reflexivity|]. intros r Hr. simpl in Hr. destruct (Req_EM_T (toR c2) 0); [discriminate|]. injection Hr as <-. rewrite nmul_ok, ninv_ok by auto. reflexivity.
        * destruct (num_pow c1 c2) as [v'|] eqn:P; [|discriminate]. injection H as <-.
          unfold stands_for. destruct (arith BPow (toR c1) (toR c2)) as [r|] eqn:A.
          -- destruct (num_pow_ok _ _ _ _ P A) as (c & -> & Hc). intros w x Hx. destruct (Vals w x Hx) as (r' & H1 & ->). assert (r' = r) by congruence. subst r' r. eexists. split; reflexivity.
          -- assert (K : forall w x, seval g (XBin BPow e1 e2) w = Some x -> False) by (intros w x Hx; destruct (Vals w x Hx) as (r & H1 & _); congruence).
             unfold num_pow in P. destruct (to_int c2); [destruct (0 <=? z)%Z; [injection P as <-|destruct (neqb c1 (nint 0)); [discriminate|injection P as <-]]|destruct (npow c1 c2); [injection P as <-|discriminate]]; intros w x Hx; destruct (K w x Hx).
    - destruct op; simpl in T; try tauto. cbn [Source.peval] in H. inv_bind H. specialize (IHe _ T E).
      assert (Sv : forall w x, seval g (XUn UNeg e) w = Some x -> exists p, seval g e w = Some (SV (FNum p)) /\ x = SV (FNum (- p))).
      { intros w x Hx. cbn [SourceSpec.seval] in Hx. destruct (seval g e w) as [[[p|]|]|]; simpl in Hx; try discriminate Hx. injection Hx as <-. eauto. }
      destruct r as [t|c| | | | |]; try discriminate H; cbn [py_un] in H.
      + cbn [stands_for] in IHe. destruct IHe as (G & R & F & V). unfold ptr in H. inv_bind H. injection H as <-. pose proof (t_neg_ok _ _ G R E0) as (Gr & Rr & K). split; [auto|]. split; [auto|]. split; [eapply t_neg_flat; eauto|].
        intros w x Hx. destruct (Sv w x Hx) as (p & H1 & ->). destruct (V w _ H1) as (y & [= <-] & Y). eexists. split; [reflexivity|]. apply K. eauto.
      + injection H as <-. intros w x Hx. destruct (Sv w x Hx) as (p & H1 & ->). destruct (IHe w _ H1) as (y & [= <-] & Y). injection Y as <-. eexists. split; [reflexivity|]. simpl. now rewrite nopp_ok.
    - apply atom_stands; auto. apply T.
    - apply atom_stands; auto. apply T.
  Qed.
  (** ** Literals that have a truth value at w *)
  Definition numlit (w : asg) (l : tr) : Prop := match l with EBasic k t _ => gev l /\ k <> KNom /\ exists r, value t w r | _ => False end.
  Definition strlit (w : asg) (l : tr) : Prop := match l with EBasic k t v => gev l /\ k = KNom /\ v <> PEmpty /\ exists s, teval t w = Some (FStr s) | _ => False end.
  Definition deflit (w : asg) (l : tr) : Prop := numlit w l \/ strlit w l.

  Lemma deflit_defined : forall w l, deflit w l -> teval l w <> None.
  Proof.
    intros w l [H|H]; destruct l; try destruct H.
    - destruct H0 as (K & r & V). cbn [teval]. unfold value in V. rewrite V. unfold truth. destruct k; try congruence; destruct (dec _); discriminate.
    - destruct H0 as (-> & _ & s & V). cbn [teval]. rewrite V. unfold truth. destruct (dec _); discriminate.
  Qed.
  Lemma lits_defined : forall (e : tr) w, gev e -> Forall (fun l => teval l w <> None) (lits e) -> teval e w <> None.
  Proof.
    intros e w G F. assert (K : holds e w \/ fails e w); [|unfold holds, fails, one, zero in K; destruct K as [K|K]; rewrite K; discriminate].
    revert G F. induction e using tr_ind'; intros G F; try (destruct G as (_ & G); discriminate G).
    - cbn [lits] in F. inversion F; subst. apply defined_cases; auto.
    - apply gev_or in G. destruct G as (_ & G). cbn [lits] in F. apply lits_list in F. rewrite holds_or, fails_or. rewrite Forall_forall in H, G, F.
      destruct (classic (exists e, In e l /\ holds e w)) as [C|C]; auto. right. intros e He. destruct (H e He (G e He) (F e He)); auto. exfalso. eauto.
    - apply gev_and in G. destruct G as (_ & G). cbn [lits] in F. apply lits_list in F. rewrite holds_and, fails_and. rewrite Forall_forall in H, G, F.
      destruct (classic (exists e, In e l /\ fails e w)) as [C|C]; auto. left. intros e He. destruct (H e He (G e He) (F e He)); auto. exfalso. eauto.
  Qed.
  Lemma numlit_def : forall w (e : tr), Forall (numlit w) (lits e) -> Forall (deflit w) (lits e).
  Proof. intros w e. apply Forall_impl. intros l. now left. Qed.
  Lemma numlit_lit : forall w k (t : tr) v, numlit w (EBasic k t v) -> num_lit (EBasic k t v).
  Proof. intros w [] t v (_ & K & _); try exact I. now apply K. Qed.

  Lemma num_and : forall w a b e, ev_and io a b = Ok e -> Forall (numlit w) (lits a) -> Forall (numlit w) (lits b) -> Forall (numlit w) (lits e).
  Proof.
    intros w a b e H. apply (ev_and_lits io _ a b e H). intros k s v j t u r x H1 H2 Et Hp Ex.
    assert (Nx : num_lit x) by (apply (num_merge io k s v j t u r x); auto; [now apply numlit_lit in H1|apply H1|apply H2]).
    destruct H1 as (G1 & K1 & V1), H2 as (G2 & K2 & V2). pose proof (gev_wf _ _ _ G1) as (_ & W1 & _). pose proof (gev_wf _ _ _ G2) as (_ & W2 & _).
    destruct (pand_f io _ _ _ W1 W2 Hp) as (Wr & _). destruct (event_of_set_ok _ _ _ _ _ G1 Wr Ex) as (Gx & _). destruct (event_of_set_shape _ _ _ Ex) as (k1 & -> & _).
    split; auto. split; auto. destruct k1; try discriminate. destruct Nx.
  Qed.
  Lemma num_or : forall w a b e, ev_or io a b = Ok e -> Forall (numlit w) (lits a) -> Forall (numlit w) (lits b) -> Forall (numlit w) (lits e).
  Proof.
    intros w a b e H. apply (ev_or_lits io _ a b e H). intros k s v j t u r x H1 H2 Et Hp Ex.
    destruct H1 as (G1 & K1 & V1), H2 as (G2 & K2 & V2). pose proof (gev_wf _ _ _ G1) as (_ & W1 & _). pose proof (gev_wf _ _ _ G2) as (_ & W2 & _).
    pose proof (por_spec io _ _ _ W1 W2 Hp) as (Wr & M & _ & _ & Em). destruct (event_of_set_ok _ _ _ _ _ G1 Wr Ex) as (Gx & _). destruct (event_of_set_shape _ _ _ Ex) as (k1 & -> & Kn).
    split; auto. split; auto. intros ->.
    assert (Nr : r <> PEmpty) by (intros ->; destruct Kn as (Kn & _); exact (Kn eq_refl)). destruct (nonempty_mem r Wr Nr) as (y & Hy). pose proof (kind_mem _ _ _ _ Gx Hy) as Ky. destruct Ky as (Ky & _). specialize (Ky eq_refl).
    apply M in Hy. destruct Hy as [Hy|Hy]; [apply (kind_mem _ _ _ _ G1 Hy) in Ky|apply (kind_mem _ _ _ _ G2 Hy) in Ky]; contradiction.
  Qed.
  Lemma num_not : forall w e n, gev e -> ev_not io e = Ok n -> Forall (numlit w) (lits e) -> Forall (numlit w) (lits n).
  Proof.
    intros w. induction e using tr_ind'; intros n G H' F; cbn [ev_not] in H'; try discriminate.
    - pose proof (ev_not_ok io (EBasic k e v) n G H') as (Gn & _). pose proof (gev_lits _ Gn) as Gl. apply inv_basic_kind in H'. inversion F as [|? ? F1 F2]; subst. destruct F1 as (_ & K & V). rewrite Forall_forall in Gl, H'.
      apply Forall_forall. intros l Hl. destruct (H' l Hl) as (j & u & -> & Hj & Hu). destruct (Gl _ Hl) as (Gl' & _). split; [exact Gl'|]. split; [tauto|exact V].
    - inv_bind H'. apply gev_or in G. destruct G as (_ & G). cbn [lits] in F. apply lits_list in F. apply mapM_Forall2 in E.
      eapply (reduce_lits (ev_and io)); [|exact H'|]; [intros a b c; apply num_and|]. rewrite Forall_forall in H, G, F. apply Forall_forall. intros y Hy. destruct (ArithProofs.Forall2_in_r _ _ _ _ _ _ E Hy) as (x & Hx & Ex). apply (H x); auto.
    - inv_bind H'. apply gev_and in G. destruct G as (_ & G). cbn [lits] in F. apply lits_list in F. apply mapM_Forall2 in E.
      eapply (reduce_lits (ev_or io)); [|exact H'|]; [intros a b c; apply num_or|]. rewrite Forall_forall in H, G, F. apply Forall_forall. intros y Hy. destruct (ArithProofs.Forall2_in_r _ _ _ _ _ _ E Hy) as (x & Hx & Ex). apply (H x); auto.
  Qed.
  Lemma def_or : forall w a b e, ev_or io a b = Ok e -> Forall (deflit w) (lits a) -> Forall (deflit w) (lits b) -> Forall (deflit w) (lits e).
  Proof.
    intros w a b e H. apply (ev_or_lits io _ a b e H). intros k s v j t u r x H1 H2 Et Hp Ex.
    assert (Tv : teval t w = teval s w) by (apply (teqb_teval t s w Et)).
    destruct H1 as [H1|H1], H2 as [H2|H2].
    - left. assert (K : Forall (numlit w) (lits x)); [|destruct (event_of_set_shape _ _ _ Ex) as (k1 & -> & _); inversion K; auto].
      apply (num_or w (EBasic k s v) (EBasic j t u)); [cbn [ev_or]; rewrite Et, Hp; cbn [bind]; now rewrite Ex|constructor; auto|constructor; auto].
    - exfalso. destruct H1 as (_ & _ & y & V1), H2 as (_ & _ & _ & z & V2). unfold value in V1. congruence.
    - exfalso. destruct H1 as (_ & _ & _ & y & V1), H2 as (_ & _ & z & V2). unfold value in V2. congruence.
    - right. destruct H1 as (G1 & -> & Nv1 & V1), H2 as (G2 & -> & Nv2 & V2). pose proof (gev_wf _ _ _ G1) as (_ & W1 & _). pose proof (gev_wf _ _ _ G2) as (_ & W2 & _).
      pose proof (por_spec io _ _ _ W1 W2 Hp) as (Wr & M & _ & _ & Em). destruct (event_of_set_ok _ _ _ _ _ G1 Wr Ex) as (Gx & _). destruct (event_of_set_shape _ _ _ Ex) as (k1 & -> & Kn).
      assert (Nr : r <> PEmpty) by (intros ->; destruct (Em eq_refl); congruence). split; auto. split; [|auto].
      destruct (nonempty_mem r Wr Nr) as (y & Hy). apply (kind_mem _ _ _ _ Gx Hy). apply M in Hy. destruct Hy as [Hy|Hy]; [apply (kind_mem _ _ _ _ G1 Hy)|apply (kind_mem _ _ _ _ G2 Hy)]; auto.
  Qed.

  (** ** Conditions *)
  Definition faithful (w : asg) (v : pyval) (b : bool) (num disj : Prop) : Prop :=
    v = PBool b \/ exists ev, v = PTr ev /\ gev ev /\ (holds ev w <-> b = true) /\ (num -> Forall (numlit w) (lits ev)) /\ (disj -> Forall (deflit w) (lits ev)).

  Lemma iv_shape : forall (t : tr) x e, t_lt t x = Ok e \/ t_le t x = Ok e \/ t_gt t x = Ok e \/ t_ge t x = Ok e -> exists v, e = EBasic KInt t v.
  Proof. intros t x e [H|[H|[H|H]]]; unfold t_lt, t_le, t_gt, t_ge in H; inv_bind H; injection H as <-; eexists; reflexivity. Qed.
  Lemma order_event : forall w (t : tr) e p (P : Prop) num disj, gev e -> (exists v, e = EBasic KInt t v) -> teval t w = Some (FNum p) ->
    (holds e w <-> P) -> faithful w (PTr e) (bool_of P) num disj.
  Proof.
    intros w t e p P num disj G (v & ->) V H. right. eexists. split; [reflexivity|]. split; auto. split.
    - rewrite H. unfold bool_of. destruct (dec P); split; auto; try discriminate; tauto.
    - assert (L : numlit w (EBasic KInt t v)) by (split; auto; split; [discriminate|eexists; exact V]). split; intros _; cbn [lits]; constructor; auto. now left.
  Qed.
  Lemma bool_of_true : forall P, bool_of P = true <-> P.
  Proof. intros P. unfold bool_of. destruct (dec P); split; auto; try discriminate; tauto. Qed.
  Lemma bool_of_eq : forall P (b : bool), (P <-> b = true) -> bool_of P = b.
  Proof. intros P b H. destruct b; [now apply bool_of_true, H|]. unfold bool_of. destruct (dec P); auto. destruct H as (H & _). now specialize (H p). Qed.
  Lemma bool_of_iff : forall P Q, (P <-> Q) -> bool_of P = bool_of Q.
  Proof. intros P Q H. apply bool_of_eq. now rewrite bool_of_true. Qed.

  Lemma order_ok : forall g a op b v w x, (op = CLt \/ op = CLe \/ op = CGt \/ op = CGe) -> term g a -> term g b ->
    peval g (XCmp a [(op, b)]) = Ok v -> seval g (XCmp a [(op, b)]) w = Some x ->
    exists r, x = SB r /\ forall num disj, faithful w v r num disj.
  Proof.
    intros g a op b v w x Op Ta Tb H Hx. cbn [Source.peval] in H. inv_bind H. inv_bind H. rename r into u1, r0 into u2.
    cbn [SourceSpec.seval] in Hx. destruct (scmp op (seval g a w) (seval g b w) (peval g b)) as [p|] eqn:Sc; [|discriminate]. injection Hx as <-. rewrite andb_true_r.
    assert (K : exists y1 y2, seval g a w = Some (SV (FNum y1)) /\ seval g b w = Some (SV (FNum y2))) by (destruct Op as [->|[->|[->| ->]]]; cbn [scmp] in Sc; destruct (seval g a w) as [[[y1|]|]|], (seval g b w) as [[[y2|]|]|]; try discriminate Sc; eauto).
    destruct K as (y1 & y2 & S1 & S2). rewrite S1, S2 in Sc. pose proof (term_ok _ _ _ Ta E) as T1. pose proof (term_ok _ _ _ Tb E0) as T2.
    exists p. split; auto. intros num disj.
    assert (H' : py_order op u1 u2 = Ok v) by (destruct Op as [->|[->|[->| ->]]]; exact H). clear H.
    destruct u1 as [t|c1| | | | |], u2 as [u|c2| | | | |]; try (destruct Op as [->|[->|[->| ->]]]; discriminate H').
    - destruct T1 as (G1 & R1 & F1 & V1). destruct (V1 w _ S1) as (? & [= <-] & V). destruct (T2 w _ S2) as (? & [= <-] & C). injection C as <-.
      destruct Op as [->|[->|[->| ->]]]; cbn [py_order] in H'; rewrite (flat_event _ F1) in H'; unfold ptr in H'; inv_bind H'; injection H' as <-; injection Sc as <-.
      + destruct (t_lt_ok _ _ _ G1 R1 E1) as (Ge & He). apply (order_event w t _ y1); auto; [eapply iv_shape; eauto|]. rewrite He. simpl. split; [intros (z & H1 & H2)|intros H1]; [congruence|eauto].
      + destruct (t_le_ok _ _ _ G1 R1 E1) as (Ge & He). apply (order_event w t _ y1); auto; [eapply iv_shape; eauto|]. rewrite He. simpl. split; [intros (z & H1 & H2)|intros H1]; [congruence|eauto].
      + destruct (t_gt_ok _ _ _ G1 R1 E1) as (Ge & He). apply (order_event w t _ y1); auto; [eapply iv_shape; eauto|]. rewrite He. simpl. unfold Rgt. split; [intros (z & H1 & H2)|intros H1]; [congruence|eauto].
      + destruct (t_ge_ok _ _ _ G1 R1 E1) as (Ge & He). apply (order_event w t _ y1); auto; [eapply iv_shape; eauto|]. rewrite He. simpl. split; [intros (z & H1 & H2)|intros H1; apply Rge_le in H1; eauto]. apply Rle_ge. congruence.
    - destruct T2 as (G1 & R1 & F1 & V1). destruct (V1 w _ S2) as (? & [= <-] & V). destruct (T1 w _ S1) as (? & [= <-] & C). injection C as <-.
      destruct Op as [->|[->|[->| ->]]]; cbn [py_order] in H'; rewrite (flat_event _ F1) in H'; unfold ptr in H'; inv_bind H'; injection H' as <-; injection Sc as <-.
      + destruct (t_gt_ok _ _ _ G1 R1 E1) as (Ge & He). apply (order_event w u _ y2); auto; [eapply iv_shape; eauto|]. rewrite He. simpl. split; [intros (z & H1 & H2)|intros H1]; [congruence|eauto].
      + destruct (t_ge_ok _ _ _ G1 R1 E1) as (Ge & He). apply (order_event w u _ y2); auto; [eapply iv_shape; eauto|]. rewrite He. simpl. split; [intros (z & H1 & H2)|intros H1]; [congruence|eauto].
      + destruct (t_lt_ok _ _ _ G1 R1 E1) as (Ge & He). apply (order_event w u _ y2); auto; [eapply iv_shape; eauto|]. rewrite He. simpl. unfold Rgt. split; [intros (z & H1 & H2)|intros H1]; [congruence|eauto].
      + destruct (t_le_ok _ _ _ G1 R1 E1) as (Ge & He). apply (order_event w u _ y2); auto; [eapply iv_shape; eauto|]. rewrite He. simpl. split; [intros (z & H1 & H2)|intros H1; apply Rge_le in H1; eauto]. apply Rle_ge. congruence.
    - destruct (T1 w _ S1) as (? & [= <-] & C1). destruct (T2 w _ S2) as (? & [= <-] & C2). injection C1 as <-. injection C2 as <-.
      left. destruct Op as [->|[->|[->| ->]]]; cbn [py_order] in H'; injection H' as <-; injection Sc as <-; f_equal; symmetry; apply bool_of_eq.
      + symmetry. apply nltb_ok.
      + symmetry. apply nleb_ok.
      + unfold Rgt. symmetry. apply nltb_ok.
      + rewrite nleb_ok. split; [apply Rge_le|apply Rle_ge].
  Qed.

  (** ** Membership *)
  Lemma const_val : forall v c (u : val N) y, const v = Some c -> as_val v = Ok u -> (val_is u y <-> y = c).
  Proof.
    intros v c u y C A. destruct v; try discriminate; simpl in C, A; injection C as <-; injection A as <-; destruct y; simpl.
    - split; intros H; injection H as <-; auto.
    - split; [tauto|discriminate].
    - split; [tauto|discriminate].
    - split; intros H; [now subst|now injection H as <-].
  Qed.
  Lemma consts_val : forall l cs (us : list (val N)) y, consts l = Some cs -> mapM as_val l = Ok us -> ((exists u, In u us /\ val_is u y) <-> In y cs).
  Proof.
    induction l as [|v l IH]; intros cs us y C A; simpl in C, A.
    - injection C as <-. injection A as <-. simpl. split; [intros (u & [] & _)|tauto].
    - destruct (const v) as [c|] eqn:Ec; [|discriminate]. destruct (consts l) as [cs'|] eqn:Es; [|discriminate]. injection C as <-. inv_bind A. inv_bind A. injection A as <-.
      pose proof (IH _ _ y eq_refl E0) as K2. pose proof (const_val _ _ _ y Ec E) as K. simpl. split.
      + intros (u & [<-|Hu] & V); [left; symmetry; tauto|right; apply K2; eauto].
      + intros [<-|Hy]; [exists r; split; [auto|now apply K]|apply K2 in Hy; destruct Hy as (u & Hu & V); eauto].
  Qed.
  Lemma vals_num : forall l (us : list (val N)), l <> [] -> Forall (fun v => is_num (Ok v)) l -> mapM as_val l = Ok us -> flat_map (val_str (N:=N)) us = [] /\ flat_map (val_num (N:=N)) us <> [].
  Proof.
    intros l us Nl F A. apply mapM_Forall2 in A. destruct A as [|v u l us Hv A]; [congruence|]. inversion F as [|? ? (c & [= ->]) F']; subst. injection Hv as <-. simpl. split; [|discriminate].
    clear Nl F. revert F'. induction A as [|v u l us Hv A IH]; intros F; auto. inversion F as [|? ? (c' & [= ->]) F']; subst. injection Hv as <-. simpl. auto.
  Qed.
  Lemma vals_str : forall l (us : list (val N)), l <> [] -> Forall (fun v => is_text (Ok v)) l -> mapM as_val l = Ok us -> flat_map (val_num (N:=N)) us = [] /\ flat_map (val_str (N:=N)) us <> [].
  Proof.
    intros l us Nl F A. apply mapM_Forall2 in A. destruct A as [|v u l us Hv A]; [congruence|]. inversion F as [|? ? (c & [= ->]) F']; subst. injection Hv as <-. simpl. split; [|discriminate].
    clear Nl F. revert F'. induction A as [|v u l us Hv A IH]; intros F; auto. inversion F as [|? ? (c' & [= ->]) F']; subst. injection Hv as <-. simpl. auto.
  Qed.
  Lemma in_ok : forall g a va vb w y p v, stands_for g a va -> numbers (Ok vb) \/ strings (Ok vb) -> seval g a w = Some (SV y) -> member y (Ok vb) = Some p ->
    py_bin io po fuel BShift va vb = Ok v ->
    exists ev, v = PTr ev /\ gev ev /\ (holds ev w <-> p = true) /\ (numbers (Ok vb) -> Forall (numlit w) (lits ev)) /\ Forall (deflit w) (lits ev).
  Proof.
    intros g a va vb w y p v T Nv Sa M H. destruct va as [t| | | | | |]; try discriminate H. destruct T as (Gt & Rt & Ft & Vt). destruct (Vt w _ Sa) as (? & [= <-] & V).
    destruct vb as [| | | |l| |s]; try discriminate H; cbn [py_bin] in H; unfold ptr in H.
    - inv_bind H. inv_bind H. rename r into us, r0 into ev. injection H as <-. exists ev. split; auto. destruct (t_in_list_ok t us ev Gt Rt E0) as (Ge & He). split; auto.
      simpl in M. destruct (consts l) as [cs|] eqn:Ec; [|discriminate]. destruct (forallb (alike y) cs) eqn:Al; [|discriminate]. injection M as <-. split.
      { rewrite He, bool_of_true, <- (consts_val _ _ _ y Ec E). split; [intros (z & u & V' & H1 & H2)|intros (u & H1 & H2); eauto]. rewrite V in V'. injection V' as <-. eauto. }
      assert (K : (numbers (Ok (PColl l)) -> Forall (numlit w) (lits ev)) /\ (strings (Ok (PColl l)) -> Forall (strlit w) (lits ev))).
      { unfold t_in_list in E0. split; intros (Nl & F).
        - destruct (vals_num l us Nl F E) as (K1 & K2). rewrite K1 in E0. destruct (flat_map val_num us) as [|x0 xs]; [congruence|]. inv_bind E0. unfold FiniteReal in E1. inv_bind E1. injection E1 as <-. cbn [EventFiniteReal] in E0. injection E0 as <-.
          cbn [lits]. constructor; auto. split; auto. split; [discriminate|]. destruct l as [|v0 l]; [congruence|]. inversion F as [|? ? (c & [= ->]) F']; subst. simpl in Ec. destruct (consts l); [|discriminate]. injection Ec as <-. destruct y as [x|]; [|discriminate Al]. exists x. exact V.
        - destruct (vals_str l us Nl F E) as (K1 & K2). rewrite K1 in E0. destruct (flat_map val_str us) as [|x0 xs]; [congruence|]. inv_bind E0. unfold FiniteNominal in E1. inv_bind E1. injection E1 as <-. cbn [EventFiniteNominal] in E0. injection E0 as <-.
          cbn [lits]. constructor; auto. split; auto. split; auto. split; [discriminate|]. destruct l as [|v0 l]; [congruence|]. inversion F as [|? ? (c & [= ->]) F']; subst. simpl in Ec. destruct (consts l); [|discriminate]. injection Ec as <-. destruct y as [x|]; [discriminate Al|]. eauto. }
      destruct K as (K1 & K2). split; auto. destruct Nv as [Nv|Nv]; [now apply numlit_def, K1|]. eapply Forall_impl; [|exact (K2 Nv)]. intros l0. now right.
    - inv_bind H. injection H as <-. rename r into ev. exists ev. split; auto. assert (W : wf s) by (destruct Nv as [(W & _)|(W & _)]; auto). destruct (t_in_ok io t s ev Gt Rt W E) as (Ge & He). split; auto.
      simpl in M. destruct (suits y s) eqn:Su; [|discriminate]. injection M as <-. split.
      { rewrite He, bool_of_true. split; [intros (z & V' & H2)|intros H2; eauto]. rewrite V in V'. now injection V' as <-. }
      assert (K : (numbers (Ok (PSet s)) -> Forall (numlit w) (lits ev)) /\ (strings (Ok (PSet s)) -> Forall (strlit w) (lits ev))).
      { split; intros (_ & Ns & O).
        - assert (Y : exists x, value t w x) by (destruct y as [x|x]; [exists x; exact V|]; simpl in Su; destruct s as [|[]|]; try discriminate).
          assert (B : forall b e, wf_b (N:=N) b -> match b with BNom _ _ => false | _ => true end = true -> t_in_basic t (PB b) = Ok e -> Forall (numlit w) (lits e)).
          { intros b e Wb Nb Hb. destruct (t_in_basic_ok t (PB b) e Gt Rt Wb Hb) as (Gb & _). destruct b; try discriminate; cbn [t_in_basic EventFiniteReal EventInterval] in Hb; injection Hb as <-; cbn [lits]; (constructor; [split; [auto|split; [discriminate|auto]]|constructor]). }
          destruct s as [|b|args]; [congruence| |].
          + apply (B b); auto.
          + cbn [t_in] in E. inv_bind E. apply mapM_Forall2 in E0. eapply (reduce_lits (ev_or io)); [|exact E|]; [intros x1 x2 x3; apply num_or|].
            apply Forall_forall. intros e Hin. destruct (ArithProofs.Forall2_in_r _ _ _ _ _ _ E0 Hin) as (b & Hb & Eb). apply (B b); auto.
            * destruct W as (W & _). rewrite Forall_forall in W. auto.
            * simpl in O. rewrite forallb_forall in O. now apply O.
        - destruct s as [|[]|]; try discriminate. cbn [t_in t_in_basic EventFiniteNominal] in E. injection E as <-. cbn [lits]. constructor; auto. split; auto. split; auto. split; [discriminate|]. destruct y as [x|x]; [discriminate Su|eauto]. }
      destruct K as (K1 & K2). split; auto. destruct Nv as [Nv|Nv]; [now apply numlit_def, K1|]. eapply Forall_impl; [|exact (K2 Nv)]. intros l0. now right.
  Qed.

  (** ** Conditions, as a whole *)
  Lemma term_rewrite : forall g e, term g e -> rewrite e = e.
  Proof.
    intros g. induction e; intros T; simpl in T; try tauto; try reflexivity; try apply T.
    - destruct op; try tauto; simpl; rewrite IHe1, IHe2 by tauto; reflexivity.
    - destruct op; try tauto. simpl. now rewrite IHe.
  Qed.
  Lemma not_faithful : forall w ev n b (num : Prop), gev ev -> ev_not io ev = Ok n -> (holds ev w <-> b = true) -> Forall (deflit w) (lits ev) -> (num -> Forall (numlit w) (lits ev)) ->
    gev n /\ (holds n w <-> negb b = true) /\ (num -> Forall (numlit w) (lits n)).
  Proof.
    intros w ev n b num G H Hb Df Nu. destruct (ev_not_ok io ev n G H) as (Gn & Hn). split; auto. split; [|intros K; exact (num_not w ev n G H (Nu K))].
    rewrite (Hn w), <- (determined (fun _ => True) ev w G), Hb; [destruct b; simpl; split; intros; try discriminate; tauto|]. apply lits_defined; auto. eapply Forall_impl; [|exact Df]. apply deflit_defined.
  Qed.
  Lemma text_not : forall (t : tr) s ev n, t_in_list t [VStr s] = Ok ev -> ev_not io ev = Ok n -> n = EBasic KNom t (PB (BNom [s] (Some true))).
  Proof. intros t s ev n H Hn. cbv in H. injection H as <-. cbn [ev_not] in Hn. unfold inv_basic in Hn. simpl in Hn. now injection Hn as <-. Qed.

  Theorem cond_ok : forall g e v w o, cond g e -> peval g (rewrite e) = Ok v -> seval g e w = Some o ->
    exists b, o = SB b /\ faithful w v b (numeric g e) (disjunctive e).
  Proof.
    intros g. induction e; intros v w o C H Hx; try (destruct C; fail).
    - simpl in H, Hx. injection H as <-. injection Hx as <-. exists b. split; auto. now left.
    - (* & and | *)
      simpl rewrite in H. cbn [Source.peval] in H. inv_bind H. inv_bind H. rename r into v1, r0 into v2. cbn [SourceSpec.seval] in Hx.
      destruct op; try (destruct C; fail); destruct C as (C1 & C2); destruct (seval g e1 w) as [x1|] eqn:S1; try discriminate; destruct (seval g e2 w) as [x2|] eqn:S2; try (destruct x1 as [[]|]; discriminate);
        destruct (IHe1 _ _ _ C1 E S1) as (b1 & -> & F1); destruct (IHe2 _ _ _ C2 E0 S2) as (b2 & -> & F2); simpl in Hx; injection Hx as <-; eexists; (split; [reflexivity|]);
        destruct F1 as [->|(t1 & -> & G1 & H1 & N1 & D1)]; try discriminate H; destruct F2 as [->|(t2 & -> & G2 & H2 & N2 & D2)]; try discriminate H; cbn [py_bin] in H; unfold ptr in H; inv_bind H; injection H as <-; right; eexists; (split; [reflexivity|]).
      + destruct (ev_and_ok io _ _ _ G1 G2 E1) as (G & Ho). split; auto. split; [rewrite Ho, H1, H2, andb_true_iff; tauto|]. split; [|intros []]. intros (K1 & K2). eapply num_and; eauto.
      + destruct (ev_or_ok io _ _ _ G1 G2 E1) as (G & Ho). split; auto. split; [rewrite Ho, H1, H2, orb_true_iff; tauto|]. split; intros (K1 & K2); [eapply num_or; eauto|eapply def_or; eauto].
    - (* ~ *)
      destruct op; try (destruct C; fail). destruct C as (C & Df). simpl rewrite in H. cbn [Source.peval] in H. inv_bind H. cbn [SourceSpec.seval] in Hx.
      destruct (seval g e w) as [x1|] eqn:S1; try discriminate. destruct (IHe _ _ _ C E S1) as (b1 & -> & F1). simpl in Hx. injection Hx as <-. eexists. split; [reflexivity|].
      destruct F1 as [->|(t1 & -> & G1 & H1 & N1 & D1)]; try discriminate H. cbn [py_un] in H. unfold ptr in H. inv_bind H. injection H as <-. right. eexists. split; [reflexivity|].
      assert (Dl : Forall (deflit w) (lits t1)) by (destruct Df as [Df|Df]; [now apply numlit_def, N1|auto]).
      destruct (not_faithful w t1 _ b1 (numeric g e) G1 E0 H1 Dl N1) as (Gn & Hn & Nn). split; auto. split; auto. split; [exact Nn|intros []].
    - (* one comparison *)
      clear IHe. destruct l as [|(op, b) [|? l]]; try (destruct C; fail); [|destruct op; destruct C]. destruct op.
      1-4: destruct C as (Ca & Cb); match type of H with peval _ (rewrite (XCmp _ [(?op, _)])) = _ => destruct (order_ok g e op b v w o ltac:(auto) Ca Cb H Hx) as (r & -> & F) end; exists r; split; [reflexivity|]; destruct (F True True) as [F'|(ev & -> & G & Ho & K1 & K2)]; [left; auto|]; right; eexists; split; [reflexivity|]; split; auto.
      + (* == *)
        destruct C as (Ca & Cb & Ns). cbn [SourceSpec.seval] in Hx. destruct (scmp CEq (seval g e w) (seval g b w) (peval g b)) as [p|] eqn:Sc; [|discriminate]. injection Hx as <-. rewrite andb_true_r. exists p. split; auto.
        cbn [scmp] in Sc. destruct (seval g e w) as [[y|]|] eqn:Se; try discriminate. destruct (seval g b w) as [[z|]|] eqn:Sb; try discriminate. destruct (alike y z) eqn:Al; [|discriminate]. injection Sc as <-.
        simpl rewrite in H. cbn [Source.peval] in H. inv_bind H. inv_bind H. cbn [mapM] in E0. inv_bind E0. inv_bind E1. cbn [mapM] in E1. injection E1 as <-. injection E0 as <-.
        assert (Nv : numbers (Ok (PColl [r2])) \/ strings (Ok (PColl [r2]))) by (rewrite E2 in Ns; destruct Ns as [Ns|Ns]; [left|right]; (split; [discriminate|]); constructor; auto).
        assert (Cz : const r2 = Some z) by (pose proof (term_ok _ _ _ Cb E2) as T; rewrite E2 in Ns; destruct Ns as [(c & [= ->])|(s & [= ->])]; destruct (T w _ Sb) as (? & [= <-] & T'); auto).
        destruct (in_ok g e r (PColl [r2]) w y (bool_of (y = z)) v (term_ok _ _ _ Ca E) Nv Se) as (ev & -> & G & Ho & K1 & K2).
        * simpl. rewrite Cz. simpl. rewrite Al. simpl. f_equal. apply bool_of_iff. split; [intros [->|[]]; auto|intros ->; auto].
        * exact H.
        * right. exists ev. split; auto. split; auto. split; auto. split; auto. intros Nu. apply K1. simpl in Nu. rewrite E2 in Nu. split; [discriminate|]. constructor; auto.
      + (* != *)
        destruct C as (Ca & Cb & Ns). cbn [SourceSpec.seval] in Hx. destruct (scmp CNe (seval g e w) (seval g b w) (peval g b)) as [p|] eqn:Sc; [|discriminate]. injection Hx as <-. rewrite andb_true_r. exists p. split; auto.
        cbn [scmp] in Sc. destruct (seval g e w) as [[y|]|] eqn:Se; try discriminate. destruct (seval g b w) as [[z|]|] eqn:Sb; try discriminate. destruct (alike y z) eqn:Al; [|discriminate]. injection Sc as <-.
        simpl rewrite in H. cbn [Source.peval] in H. inv_bind H. inv_bind E. inv_bind E. cbn [mapM] in E1. inv_bind E1. inv_bind E2. cbn [mapM] in E2. injection E2 as <-. injection E1 as <-.
        assert (Nv : numbers (Ok (PColl [r3])) \/ strings (Ok (PColl [r3]))) by (rewrite E3 in Ns; destruct Ns as [Ns|Ns]; [left|right]; (split; [discriminate|]); constructor; auto).
        assert (Cz : const r3 = Some z) by (pose proof (term_ok _ _ _ Cb E3) as T; rewrite E3 in Ns; destruct Ns as [(c & [= ->])|(s & [= ->])]; destruct (T w _ Sb) as (? & [= <-] & T'); auto).
        destruct (in_ok g e r0 (PColl [r3]) w y (bool_of (y = z)) r (term_ok _ _ _ Ca E0) Nv Se) as (ev & -> & G & Ho & K1 & K2).
        * simpl. rewrite Cz. simpl. rewrite Al. simpl. f_equal. apply bool_of_iff. split; [intros [->|[]]; auto|intros ->; auto].
        * exact E.
        * cbn [py_un] in H. unfold ptr in H. inv_bind H. injection H as <-. right. eexists. split; [reflexivity|].
          destruct (not_faithful w ev r (bool_of (y = z)) (numeric g (XCmp e [(CNe, b)])) G E1 Ho K2) as (Gn & Hn & Nn).
          { intros Nu. apply K1. simpl in Nu. rewrite E3 in Nu. split; [discriminate|]. constructor; auto. }
          split; auto. split. { rewrite Hn. unfold bool_of. destruct (dec (y = z)), (dec (y <> z)); simpl; tauto. }
          split; auto. intros _. rewrite E3 in Ns. destruct Ns as [Ns|(s & Ns)].
          { apply numlit_def, Nn. simpl. now rewrite E3. }
          injection Ns as ->. destruct r0 as [t| | | | | |]; try discriminate E. destruct (term_ok _ _ _ Ca E0) as (Gt & Rt & Ft & Vt). destruct (Vt w _ Se) as (? & [= <-] & V).
          cbn [py_bin] in E. inv_bind E. cbn in E2. injection E2 as <-. unfold ptr in E. inv_bind E. injection E as <-. pose proof (text_not _ _ _ _ E2 E1) as ->. cbn [lits]. constructor; auto. right. split; auto. split; auto. split; [discriminate|].
          simpl in Cz. injection Cz as <-. destruct y; [discriminate|eauto].
      + (* in *)
        destruct C as (Ca & Ns). cbn [SourceSpec.seval] in Hx. destruct (scmp CIn (seval g e w) (seval g b w) (peval g b)) as [p|] eqn:Sc; [|discriminate]. injection Hx as <-. rewrite andb_true_r. exists p. split; auto.
        cbn [scmp] in Sc. destruct (seval g e w) as [[y|]|] eqn:Se; try discriminate. simpl rewrite in H. cbn [Source.peval] in H. inv_bind H. inv_bind H. rewrite E0 in Ns, Sc.
        destruct (in_ok g e r r0 w y p v (term_ok _ _ _ Ca E) Ns Se Sc H) as (ev & -> & G & Ho & K1 & K2). right. exists ev. split; auto. split; auto. split; auto. split; auto. intros Nu. apply K1. simpl in Nu. now rewrite E0 in Nu.
      + (* not in *)
        destruct C as (Ca & Ns). cbn [SourceSpec.seval] in Hx. destruct (scmp CNotIn (seval g e w) (seval g b w) (peval g b)) as [p|] eqn:Sc; [|discriminate]. injection Hx as <-. rewrite andb_true_r. exists p. split; auto.
        cbn [scmp] in Sc. destruct (seval g e w) as [[y|]|] eqn:Se; try discriminate. simpl rewrite in H. cbn [Source.peval] in H. inv_bind H. inv_bind E. inv_bind E. rewrite E1 in Ns, Sc. destruct (member y (Ok r1)) as [q|] eqn:Mq; [|discriminate]. injection Sc as <-.
        destruct (in_ok g e r0 r1 w y q r (term_ok _ _ _ Ca E0) Ns Se Mq E) as (ev & -> & G & Ho & K1 & K2).
        cbn [py_un] in H. unfold ptr in H. inv_bind H. injection H as <-. right. eexists. split; [reflexivity|].
        destruct (not_faithful w ev r q (numeric g (XCmp e [(CNotIn, b)])) G E2 Ho K2) as (Gn & Hn & Nn).
        { intros Nu. apply K1. simpl in Nu. now rewrite E1 in Nu. }
        split; auto. split; auto. split; auto. intros [].
  Qed.
End Expr.
