(** Transforms whose text is read as the same function. *)
From Coq Require Import List Bool String Reals Lra Lia ZArith QArith Qreals FunctionalExtensionality.
From Verif Require Import Base Num Sets SetSpec Poly Trans TransSpec TransFacts ArithProofs Dnf DnfSpec Logs Spe SpeSpec SpeOps Prog ProgSpec Source Render RenderSpec RenderVisit.
Import ListNotations.
Local Open Scope R_scope.
Local Open Scope list_scope.

Section Show.
  Context {N : numsys} (io : iterorder N) (po : polyoracle N) (fuel : nat).
  Notation tr := (tr N).
  Notation num := (num N).
  Notation env := (env (N:=N)).
  Notation expr := (expr N).
  Context (isdist : string -> bool) (call : string -> list (pyval (N:=N)) -> list (string * pyval (N:=N)) -> res (pyval (N:=N))).
  Context (is_e : num -> bool) (num_text : num -> string).
  Notation peval := (peval io po fuel call).
  Notation show := (show is_e num_text).
  Notation terms_text := (terms_text num_text).
  Notation shows := (shows io po fuel isdist call is_e num_text).

  (** a power, or not a polynomial *)
  Definition no_sum (u : tr) : Prop := match u with TPoly _ cs => exists k, cs = repeat (nint 0) (2 + k) ++ [nint 1] | _ => True end.
  Definition no_poly (u : tr) : Prop := match u with TPoly _ _ => False | _ => True end.
  Definition coeff (cs : list num) (i : nat) : R := toR (nth i cs (nint 0)).
  (** Texts that Python reads as they are meant: names, powers b**u of numbers other than e, 1/u where u
      is not a sum, and polynomials of degree at least 1 whose linear coefficient is not written as a factor. *)
  Fixpoint printable (t : tr) : Prop :=
    match t with
    | TId x => plain_name x /\ isdist x = false
    | TExp u b => printable u /\ is_e b = false
    | TRecip u => printable u /\ no_sum u
    | TPoly u cs =>
      printable u /\ (coeff cs 1 = 0 \/ coeff cs 1 = 1 /\ no_poly u) /\
      (exists i, (1 <= i)%nat /\ coeff cs i <> 0) /\ (exists i, i <> 1%nat /\ coeff cs i <> 0)
    | _ => False
    end.

  (** what is read *)
  Fixpoint arith (t : tr) : Prop := match t with TId _ => True | TExp u _ | TRecip u | TPoly u _ => arith u | _ => False end.
  Lemma neqb_refl' : forall c : num, neqb c c = true.
  Proof. intros c. now apply neqb_ok. Qed.
  Lemma arith_refl : forall t : tr, arith t -> teqb t t = true.
  Proof.
    assert (L : forall cs : list num, list_eqb neqb cs cs = true) by (induction cs; cbn; auto; now rewrite neqb_refl').
    induction t; intros A; try contradiction; cbn [teqb]; rewrite ?String.eqb_refl, ?neqb_refl', ?IHt, ?L by auto; auto.
  Qed.
  Lemma arith_plain : forall t : tr, arith t -> plain t.
  Proof. induction t; intros A; cbn in *; auto; contradiction. Qed.
  Lemma arith_realv : forall t : tr, arith t -> realv t.
  Proof. destruct t; intros A; cbn in *; auto; contradiction. Qed.

  (** ** Leading coefficients *)
  Definition lead (cs : list num) : Prop := exists ds c, cs = ds ++ [c] /\ neqb c (nint 0) = false.
  Lemma trim_lead : forall cs, lead cs -> ptrim cs = cs.
  Proof.
    intros cs (ds & c & -> & H). induction ds as [|d ds IH]; cbn [app ptrim]; [now rewrite H|]. rewrite IH. destruct (ds ++ [c]) eqn:E; [destruct ds; discriminate|reflexivity].
  Qed.
  Lemma padd_lead : forall as_ ds (c : num), (List.length as_ <= List.length ds)%nat -> padd as_ (ds ++ [c]) = padd as_ ds ++ [c].
  Proof.
    induction as_ as [|a as_ IH]; intros [|d ds] c H; cbn [padd app List.length] in *; auto; [lia|]. rewrite IH by lia. reflexivity.
  Qed.
  Lemma padd_length : forall as_ ds : list num, (List.length as_ <= List.length ds)%nat -> List.length (padd as_ ds) = List.length ds.
  Proof. induction as_ as [|a as_ IH]; intros [|d ds] H; cbn [padd List.length] in *; auto; [lia|]. rewrite IH; lia. Qed.
  Lemma lead_not_const : forall cs, lead cs -> (2 <= List.length cs)%nat -> is_const cs = false.
  Proof. intros cs H L. unfold is_const. rewrite trim_lead by auto. apply Nat.leb_gt. lia. Qed.
  Lemma lead_poly : forall (u : tr) cs, (2 <= List.length cs)%nat -> Poly_ u cs = Ok (TPoly u cs).
  Proof. intros u cs H. unfold Poly_. replace (Nat.ltb 1 (List.length cs)) with true by (symmetry; apply Nat.ltb_lt; lia). reflexivity. Qed.

  (** ** One term *)
  Section Terms.
    Context (G : env -> Prop) (p : piece (N:=N)) (u : tr).
    Definition evals (q : piece (N:=N)) (v : pyval (N:=N)) : Prop := forall g, G g -> peval g (rewrite (tree q)) = Ok v.
    Context (Hu : evals p (PTr u)) (Au : arith u).
    Definition holds_poly (v : pyval (N:=N)) (cs : list num) : Prop :=
      match v with PNum c => cs = [c] | PTr t => (t = TPoly u cs \/ t = u /\ no_poly u /\ cs = [nint 0; nint 1]) /\ lead cs /\ (2 <= List.length cs)%nat | _ => False end.
    Lemma holds_polyify : forall t cs, holds_poly (PTr t) cs -> polyify t = (u, cs).
    Proof. intros t cs ([->|(-> & Np & ->)] & _); [reflexivity|]. destruct u; try reflexivity. contradiction. Qed.
    Lemma neqb10 : neqb (nint (n:=N) 1) (nint 0) = false.
    Proof. apply not_true_is_false. intros H. apply neqb_ok in H. rewrite !nint_ok in H. lra. Qed.
    Lemma to_int_nat : forall i, Source.to_int (nint (n:=N) (Z.of_nat i)) = Some (Z.of_nat i).
    Proof.
      intros i. unfold Source.to_int. assert (E : nfloor (nint (n:=N) (Z.of_nat i)) = Z.of_nat i) by (pose proof (nfloor_ok N (nint (n:=N) (Z.of_nat i))) as (F1 & F2); rewrite nint_ok in F1, F2; apply le_IZR in F1; rewrite <- plus_IZR in F2; apply lt_IZR in F2; lia). rewrite E, neqb_refl'. reflexivity.
    Qed.
    Lemma term_ok : forall i c q, (1 <= i)%nat -> (i = 1%nat -> neqb c (nint 1) = true /\ no_poly u) -> term_text num_text p i c = [q] -> neqb c (nint 0) = false ->
      exists t ds, evals q (PTr t) /\ holds_poly (PTr t) ds /\ List.length ds = (1 + i)%nat /\ (forall x, Rpoly ds x = toR c * x ^ i) /\ ((2 <= i)%nat -> t = TPoly u ds).
    Proof.
      intros i c q Hi H1 E Hc. unfold term_text in E. rewrite Hc in E. destruct i as [|[|i]]; [lia| |].
      - destruct (H1 eq_refl) as (C1 & Np). rewrite C1 in E. injection E as <-. exists u, [nint 0; nint 1]. split; [exact Hu|]. split.
        + split; [auto|]. split; [|cbn; lia]. exists [nint 0], (nint 1). split; [reflexivity|exact neqb10].
        + split; [reflexivity|]. split; [|lia]. intros x. apply neqb_ok in C1. rewrite C1. cbn [Rpoly]. rewrite !nint_ok. cbn. lra.
      - set (n := Datatypes.S (Datatypes.S i)) in *. set (ps := repeat (nint (n:=N) 0) n ++ [nint 1]).
        assert (Lp : List.length ps = (1 + n)%nat) by (unfold ps; rewrite app_length, repeat_length; cbn; lia).
        assert (Ep : evals (Op BPow (brackets p) (Whole (XNum (nint (Z.of_nat n))))) (PTr (TPoly u ps))).
        { intros g Hg. cbn [tree brackets rewrite Source.peval]. rewrite (Hu g Hg). cbn [bind py_bin]. rewrite to_int_nat. unfold pow_int, Pow_. unfold n at 1. cbn [Z.of_nat]. rewrite SuccNat2Pos.id_succ. fold n. fold ps. rewrite lead_poly by lia. reflexivity. }
        destruct (neqb c (nint 1)) eqn:C1; injection E as <-.
        + exists (TPoly u ps), ps. split; [exact Ep|]. split; [split; [auto|]; split; [|lia]; exists (repeat (nint 0) n), (nint 1); split; [reflexivity|exact neqb10]|]. split; [exact Lp|]. split; [|reflexivity]. intros x. apply neqb_ok in C1. rewrite C1, nint_ok. unfold ps. rewrite Rpoly_pow. lra.
        + exists (TPoly u (map (nmul c) ps)), (map (nmul c) ps). split.
          { intros g Hg. set (q0 := Op BPow _ _) in *. change (peval g (rewrite (tree (Op BMul (Whole (XNum c)) q0)))) with (do x <- Ok (PNum c); do y <- peval g (rewrite (tree q0)); py_bin io po fuel BMul x y). rewrite (Ep g Hg). cbn [bind py_bin]. unfold mul_num. cbn [polyify]. rewrite lead_poly by (rewrite map_length; lia). reflexivity. }
          split; [split; [auto|]; split; [|rewrite map_length; lia]; exists (map (nmul c) (repeat (nint 0) n)), (nmul c (nint 1)); split; [unfold ps; rewrite map_app; reflexivity|]|].
          { apply not_true_is_false. intros H. apply neqb_ok in H. rewrite nmul_ok, !nint_ok in H. apply not_true_iff_false in Hc. apply Hc. apply neqb_ok. rewrite nint_ok. lra. }
          split; [rewrite map_length; exact Lp|]. split; [|reflexivity]. intros x. rewrite Rpoly_map_mul. unfold ps. rewrite Rpoly_pow. reflexivity.
    Qed.
    (** ** Sums of terms *)
    Lemma plus_ok : forall v as_ t ds, holds_poly v as_ -> holds_poly (PTr t) ds -> (List.length as_ < List.length ds)%nat ->
      exists cs, py_bin io po fuel BAdd v (PTr t) = Ok (PTr (TPoly u cs)) /\ holds_poly (PTr (TPoly u cs)) cs /\ List.length cs = List.length ds /\ forall x, Rpoly cs x = Rpoly as_ x + Rpoly ds x.
    Proof.
      intros v as_ t ds Hv Ht L. pose proof (holds_polyify t ds Ht) as Et. destruct Ht as (_ & (es & c & -> & Hc) & L2). rewrite app_length in L, L2. cbn [List.length] in L, L2. destruct v as [s|d| | | | |]; try contradiction.
      - pose proof (holds_polyify s as_ Hv) as Es. destruct Hv as (_ & Ls & L3). exists (padd as_ (es ++ [c])).
        assert (Hl : lead (padd as_ (es ++ [c]))) by (rewrite padd_lead by lia; exists (padd as_ es), c; auto).
        assert (Hlen : List.length (padd as_ (es ++ [c])) = List.length (es ++ [c])) by (rewrite padd_length; [reflexivity|rewrite app_length; cbn; lia]).
        split; [|split; [split; [auto|split; [exact Hl|rewrite Hlen, app_length; cbn; lia]]|split; [exact Hlen|intros x; apply Rpoly_padd]]].
        cbn [py_bin]. replace (t_add io po fuel s t) with (add_poly s t).
        + unfold add_poly. rewrite Es, Et, arith_refl by auto. cbn [negb]. rewrite (lead_not_const as_) by auto. rewrite (lead_not_const (es ++ [c])); [|exists es, c; auto|rewrite app_length; cbn; lia]. cbn [orb]. assert (Eall : all_coeffs (padd as_ (es ++ [c])) = padd as_ (es ++ [c])) by (unfold all_coeffs; rewrite trim_lead by auto; destruct (padd as_ (es ++ [c])); [rewrite app_length in Hlen; cbn in Hlen; lia|reflexivity]). rewrite Eall, lead_poly; [reflexivity|]. rewrite Hlen, app_length. cbn. lia.
        + unfold t_add. destruct s; try reflexivity. exfalso. cbn in Es. injection Es as Es _. rewrite <- Es in Au. contradiction.
      - cbn in Hv. subst as_. destruct es as [|e es]; [cbn in L2; lia|]. exists (nadd e d :: es ++ [c]).
        split; [|split; [split; [auto|split; [exists (nadd e d :: es), c; auto|cbn [List.length]; rewrite app_length; cbn; lia]]|split; [reflexivity|]]].
        + cbn [py_bin]. unfold add_num. rewrite Et. cbn [app]. rewrite lead_poly; [reflexivity|]. cbn [List.length]. rewrite app_length. cbn. lia.
        + intros x. cbn [app Rpoly]. rewrite nadd_ok. lra.
    Qed.
    Definition addable (q : piece (N:=N)) : Prop := match q with Op (BAdd | BSub) _ _ => False | _ => True end.
    Lemma joined_add : forall a q, addable q -> joined a q = Op BAdd a q.
    Proof. intros a [e|[] a' b'] H; try reflexivity; contradiction. Qed.

    (** the linear coefficient *)
    Definition linear_ok (c : num) : Prop := neqb c (nint 0) = true \/ neqb c (nint 1) = true /\ no_poly u /\ addable p.
    Definition linear_in (i : nat) (cs : list num) : Prop := forall j, (i + j = 1)%nat -> linear_ok (nth j cs (nint 0)).
    Lemma linear_next : forall i c cs, linear_in i (c :: cs) -> linear_in (1 + i) cs.
    Proof. intros i c cs H j Hj. apply (H (1 + j)%nat). lia. Qed.
    Lemma zero_R : forall c : num, neqb c (nint 0) = true <-> toR c = 0.
    Proof. intros c. rewrite neqb_ok, nint_ok. reflexivity. Qed.
    Lemma term_zero : forall i c, neqb c (nint 0) = true -> term_text num_text p i c = [].
    Proof. intros i c H. unfold term_text. now rewrite H. Qed.
    Lemma term_one : forall i c, neqb c (nint 0) = false -> exists q, term_text num_text p i c = [q].
    Proof. intros i c H. unfold term_text. rewrite H. destruct i as [|[|i]]; eauto. Qed.
    Lemma linear_at : forall i c cs, linear_in i (c :: cs) -> neqb c (nint 0) = false -> i = 1%nat -> neqb c (nint 1) = true /\ no_poly u.
    Proof. intros i c cs H Hc ->. destruct (H 0%nat eq_refl) as [K|K]; cbn in K; [congruence|tauto]. Qed.
    Lemma term_addable : forall i c cs q, linear_in i (c :: cs) -> term_text num_text p i c = [q] -> addable q.
    Proof.
      intros i c cs q H E. unfold term_text in E. destruct (neqb c (nint 0)) eqn:Hc; [discriminate|]. destruct i as [|[|i]].
      - injection E as <-. exact Logic.I.
      - destruct (H 0%nat eq_refl) as [K|(K & _ & A)]; cbn in K; [congruence|]. rewrite K in E. injection E as <-. exact A.
      - destruct (neqb c (nint 1)); injection E as <-; exact Logic.I.
    Qed.
    Lemma fold_ok : forall cs i acc v as_, (1 <= i)%nat -> linear_in i cs -> evals acc v -> holds_poly v as_ -> (List.length as_ <= i)%nat ->
      exists v' cs', evals (fold_left joined (terms_text p i cs) acc) v' /\ holds_poly v' cs' /\ (forall x, Rpoly cs' x = Rpoly as_ x + x ^ i * Rpoly cs x) /\
        ((v' = v /\ forall c, In c cs -> toR c = 0) \/ v' = PTr (TPoly u cs')).
    Proof.
      induction cs as [|c cs IH]; intros i acc v as_ Hi Li Ha Hv Le; cbn [Render.terms_text].
      - exists v, as_. cbn [fold_left]. repeat split; auto. + intros x. cbn. lra. + left. split; auto. intros c [].
      - destruct (neqb c (nint 0)) eqn:Hc.
        + rewrite term_zero by auto. cbn [app]. apply zero_R in Hc. destruct (IH (1 + i)%nat acc v as_ ltac:(lia) (linear_next _ _ _ Li) Ha Hv ltac:(lia)) as (v' & cs' & A1 & A2 & A3 & A4). exists v', cs'. split; [exact A1|]. split; [exact A2|]. split.
          * intros x. rewrite A3. cbn [Rpoly Nat.add pow]. rewrite Hc. ring.
          * destruct A4 as [(-> & Z)|A4]; auto. left. split; auto. intros d [<-|Hd]; auto.
        + destruct (term_one i c Hc) as (q & Eq). rewrite Eq. cbn [app fold_left]. rewrite joined_add by (eapply term_addable; eauto).
          destruct (term_ok i c q Hi (linear_at i c cs Li Hc) Eq Hc) as (t & ds & B1 & B2 & B3 & B4 & _).
          destruct (plus_ok v as_ t ds Hv B2 ltac:(lia)) as (es & C1 & C2 & C3 & C4).
          assert (Ev : evals (Op BAdd acc q) (PTr (TPoly u es))) by (intros g Hg; cbn [tree rewrite Source.peval]; rewrite (Ha g Hg); cbn [bind]; rewrite (B1 g Hg); exact C1).
          destruct (IH (1 + i)%nat (Op BAdd acc q) (PTr (TPoly u es)) es ltac:(lia) (linear_next _ _ _ Li) Ev C2 ltac:(lia)) as (v' & cs' & A1 & A2 & A3 & A4).
          exists v', cs'. split; [exact A1|]. split; [exact A2|]. split.
          * intros x. rewrite A3, C4, B4. cbn [Rpoly Nat.add pow]. ring.
          * right. destruct A4 as [(-> & _)|A4]; auto. destruct A2 as ([A2|(A2 & Np & _)] & _); [injection A2 as <-; reflexivity|]. exfalso. rewrite <- A2 in Np. exact Np.
    Qed.
    Lemma first_ok : forall cs i, (1 <= i)%nat -> linear_in i cs ->
      (terms_text p i cs = [] /\ forall c, In c cs -> toR c = 0) \/
      exists q qs t cs', terms_text p i cs = q :: qs /\ evals (fold_left joined qs q) (PTr t) /\ holds_poly (PTr t) cs' /\ (forall x, Rpoly cs' x = x ^ i * Rpoly cs x) /\
        (t = TPoly u cs' \/ i = 1%nat /\ forall c, In c (tl cs) -> toR c = 0).
    Proof.
      induction cs as [|c cs IH]; intros i Hi Li; cbn [Render.terms_text].
      - left. split; auto. intros c [].
      - destruct (neqb c (nint 0)) eqn:Hc.
        + rewrite term_zero by auto. cbn [app]. apply zero_R in Hc. destruct (IH (1 + i)%nat ltac:(lia) (linear_next _ _ _ Li)) as [(E & Z)|(q & qs & t & cs' & A1 & A2 & A3 & A4 & A5)].
          * left. split; auto. intros d [<-|Hd]; auto.
          * right. exists q, qs, t, cs'. split; [exact A1|]. split; [exact A2|]. split; [exact A3|]. split; [|destruct A5 as [A5|(A5 & _)]; [auto|lia]]. intros x. rewrite A4. cbn [Rpoly Nat.add pow]. rewrite Hc. ring.
        + right. destruct (term_one i c Hc) as (q & Eq). rewrite Eq. cbn [app]. exists q, (terms_text p (Datatypes.S i) cs).
          destruct (term_ok i c q Hi (linear_at i c cs Li Hc) Eq Hc) as (t & ds & B1 & B2 & B3 & B4 & B5).
          destruct (fold_ok cs (1 + i)%nat q (PTr t) ds ltac:(lia) (linear_next _ _ _ Li) B1 B2 ltac:(lia)) as (v' & cs' & A1 & A2 & A3 & A4).
          assert (Ex : forall x, Rpoly cs' x = x ^ i * Rpoly (c :: cs) x) by (intros x; rewrite A3, B4; cbn [Rpoly Nat.add pow]; ring).
          destruct A4 as [(-> & Z)| ->].
          * exists t, cs'. split; auto. split; [exact A1|]. split; [exact A2|]. split; [exact Ex|]. destruct (Nat.eq_dec i 1) as [->|Ni]; [right; auto|left]. rewrite B5 in * by lia. destruct A2 as ([A2|(A2 & Np & _)] & _); [exact A2|]. exfalso. rewrite <- A2 in Np. exact Np.
          * exists (TPoly u cs'), cs'. split; [reflexivity|]. split; [exact A1|]. split; [exact A2|]. split; [exact Ex|now left].
    Qed.
    (** the names *)
    Lemma joined_names : forall qs q, Forall addable qs -> forall z, In z (names (tree (fold_left joined qs q))) <-> In z (names (tree q)) \/ exists r, In r qs /\ In z (names (tree r)).
    Proof.
      induction qs as [|r qs IH]; intros q F z; cbn [fold_left].
      - split; [auto|intros [H|(r & [] & _)]; auto].
      - inversion F; subst. rewrite joined_add by auto. rewrite IH by auto. cbn [tree names]. rewrite in_app_iff. split.
        + intros [[H|H]|(s & Hs & H)]; [auto|right; exists r; split; [now left|auto]|right; exists s; split; [now right|auto]].
        + intros [H|(s & [<-|Hs] & H)]; [auto|auto|right; exists s; auto].
    Qed.
    Lemma term_names : forall i c cs q, (1 <= i)%nat -> linear_in i (c :: cs) -> term_text num_text p i c = [q] -> forall z, In z (names (tree q)) <-> In z (names (tree p)).
    Proof.
      intros i c cs q Hi H E z. unfold term_text in E. destruct (neqb c (nint 0)) eqn:Hc; [discriminate|]. destruct i as [|[|i]]; [lia| |].
      - destruct (H 0%nat eq_refl) as [K|(K & _ & A)]; cbn in K; [congruence|]. rewrite K in E. injection E as <-. reflexivity.
      - destruct (neqb c (nint 1)); injection E as <-; cbn [tree brackets names app]; rewrite ?app_nil_r; reflexivity.
    Qed.
    Lemma terms_names : forall cs i, (1 <= i)%nat -> linear_in i cs -> Forall (fun q => addable q /\ forall z, In z (names (tree q)) <-> In z (names (tree p))) (terms_text p i cs).
    Proof.
      induction cs as [|c cs IH]; intros i Hi Li; cbn [Render.terms_text]; [constructor|]. apply Forall_app. split; [|apply IH; [lia|now apply linear_next in Li]].
      destruct (neqb c (nint 0)) eqn:Hc; [rewrite term_zero by auto; constructor|]. destruct (term_one i c Hc) as (q & Eq). rewrite Eq. constructor; [|constructor]. split; [eapply term_addable; eauto|eapply term_names; eauto].
    Qed.
  End Terms.

  (** ** Shapes of texts *)
  Definition token_or_op (x : string) (e : expr) : Prop := e = XName x \/ exists op a b, e = XBin op a b.
  Lemma joined_op : forall a b : piece (N:=N), exists op c d, joined a b = Op op c d.
  Proof. intros a [e|[] b1 b2]; cbn; eauto. Qed.
  Lemma fold_op : forall qs (q : piece (N:=N)), qs <> [] -> exists op c d, fold_left joined qs q = Op op c d.
  Proof.
    induction qs as [|r qs IH]; intros q H; [contradiction|]. cbn [fold_left]. destruct qs as [|r' qs]; [apply joined_op|]. apply IH. discriminate.
  Qed.
  Lemma single : forall p cs i q, terms_text p i cs = [q] -> exists j, term_text num_text p (i + j) (nth j cs (nint 0)) = [q] /\ forall k, k <> j -> coeff cs k = 0.
  Proof.
    intros p. assert (Z : forall cs i, terms_text p i cs = [] -> forall k, coeff cs k = 0).
    { induction cs as [|c cs IH]; intros i E k; cbn [Render.terms_text] in E; [destruct k; apply nint_ok|]. apply app_eq_nil in E. destruct E as (E1 & E2). destruct k as [|k]; [|exact (IH _ E2 k)]. unfold coeff. cbn. destruct (neqb c (nint 0)) eqn:Hc; [now apply zero_R|]. destruct (term_one p i c Hc) as (q & Eq). congruence. }
    induction cs as [|c cs IH]; intros i q E; cbn [Render.terms_text] in E; [discriminate|]. destruct (neqb c (nint 0)) eqn:Hc.
    - rewrite term_zero in E by auto. cbn [app] in E. destruct (IH _ _ E) as (j & A & B). exists (Datatypes.S j). split; [replace (i + Datatypes.S j)%nat with (Datatypes.S i + j)%nat by lia; exact A|]. intros [|k] Hk; [now apply zero_R in Hc|]. exact (B k ltac:(lia)).
    - destruct (term_one p i c Hc) as (r & Er). rewrite Er in E. cbn [app] in E. injection E as -> E. exists 0%nat. split; [now rewrite Nat.add_0_r|]. intros [|k] Hk; [lia|]. exact (Z _ _ E k).
  Qed.
  Lemma power_text : forall p n i, terms_text p i (repeat (nint 0) n ++ [nint 1]) = term_text num_text p (i + n) (nint 1).
  Proof.
    intros p. induction n as [|n IH]; intros i; cbn [repeat app Render.terms_text].
    - now rewrite Nat.add_0_r, app_nil_r.
    - rewrite term_zero by apply neqb_refl'. cbn [app]. rewrite IH. f_equal. lia.
  Qed.

  Lemma no_terms : forall p l j n, coeff l n <> 0 -> terms_text p j l <> [].
  Proof.
    intros p. induction l as [|d l IH]; intros j n Hz E; [destruct n; apply Hz, nint_ok|]. cbn [Render.terms_text] in E. apply app_eq_nil in E. destruct E as (E & E'). destruct n as [|n]; [|exact (IH _ _ Hz E')].
    destruct (neqb d (nint 0)) eqn:Hd; [apply Hz; now apply zero_R|]. destruct (term_one p j d Hd) as (r & Er). congruence.
  Qed.

  (** ** Every printable transform *)
  Definition shown (t : tr) (x : string) (p : piece (N:=N)) (t' : tr) : Prop :=
    arith t' /\ symbols t' = [x] /\ good t' /\ (forall w, teval t' w = teval t w) /\
    (forall g, Source.lookup g x = Ok (PTr (TId x)) -> peval g (rewrite (tree p)) = Ok (PTr t')) /\
    (forall z, In z (names (tree p)) <-> z = x) /\ token_or_op x (tree p) /\
    (no_poly t -> no_poly t' /\ addable p) /\ (no_sum t -> over p = Op BDiv (Whole (XNum (nint 1))) p).
  Lemma poly_shown : forall u cs x p u', printable (TPoly u cs) -> shown u x p u' -> exists q t', show (TPoly u cs) = (do p <- show u; match terms_text p 0 cs with [] => Raise SyntaxError | q :: qs => Ok (fold_left joined qs q) end) /\
    match terms_text p 0 cs with [] => Raise SyntaxError | q :: qs => Ok (fold_left joined qs q) end = Ok q /\ shown (TPoly u cs) x q t'.
  Proof.
    intros u cs x p u' (_ & Hl & (i & Hi & Ci) & (k & Hk & Ck)) (Au & Su & Gu & Eu & Pu & Nu & _ & NP & _).
    assert (Li : linear_in p u' 0 cs).
    { intros j Hj. assert (j = 1%nat) as -> by lia. destruct Hl as [Hl|(Hl & Np)]; [left; now apply zero_R|right]. destruct (NP Np). split; auto. apply neqb_ok. rewrite nint_ok. exact Hl. }
    destruct cs as [|c cs]; [exfalso; apply Ci; destruct i; apply nint_ok|].
    assert (Li1 : linear_in p u' 1 cs) by exact (linear_next _ _ _ _ _ Li).
    destruct i as [|i]; [lia|]. assert (Ci' : coeff cs i <> 0) by exact Ci.
    assert (In_c : forall (l : list num) j, coeff l j <> 0 -> In (nth j l (nint 0)) l).
    { intros l j H. apply nth_In. destruct (le_lt_dec (List.length l) j) as [G|G]; auto. exfalso. apply H. unfold coeff. rewrite nth_overflow by auto. apply nint_ok. }
    assert (Sh : forall q qs, terms_text p 0 (c :: cs) = q :: qs -> token_or_op x (tree (fold_left joined qs q))).
    { intros q qs E. right. destruct qs as [|r qs].
      - destruct (single _ _ _ _ E) as (j & A & B). cbn [fold_left]. assert (j <> 0%nat) by (intros ->; apply Ci; apply B; lia). assert (j <> 1%nat) by (intros ->; apply Ck, B, Hk). destruct j as [|[|j]]; try lia. cbn [Nat.add] in A. unfold term_text in A. destruct (neqb (nth _ (c :: cs) (nint 0)) (nint 0)); [discriminate|]. destruct (neqb _ (nint 1)); injection A as <-; cbn [tree]; eauto.
      - destruct (fold_op (r :: qs) q ltac:(discriminate)) as (op & a & b & ->). cbn [tree]. eauto. }
    assert (Over : no_sum (TPoly u (c :: cs)) -> forall q qs, terms_text p 0 (c :: cs) = q :: qs -> over (fold_left joined qs q) = Op BDiv (Whole (XNum (nint 1))) (fold_left joined qs q)).
    { intros (n & E) q qs Eq. rewrite E in Eq. rewrite power_text in Eq. cbn [Nat.add] in Eq. unfold term_text in Eq. rewrite neqb10, neqb_refl' in Eq. injection Eq as <- <-. reflexivity. }
    assert (Tn : Forall (fun q => addable q /\ forall z, In z (names (tree q)) <-> In z (names (tree p))) (terms_text p 1 cs)) by (apply (terms_names p u'); auto).
    assert (Fin : forall q qs cs', terms_text p 0 (c :: cs) = q :: qs -> (forall y, Rpoly cs' y = Rpoly (c :: cs) y) ->
      (forall g, Source.lookup g x = Ok (PTr (TId x)) -> peval g (rewrite (tree (fold_left joined qs q))) = Ok (PTr (TPoly u' cs'))) ->
      (forall z, In z (names (tree (fold_left joined qs q))) <-> z = x) -> shown (TPoly u (c :: cs)) x (fold_left joined qs q) (TPoly u' cs')).
    { intros q qs cs' E Ev Pe Nm. split; [exact Au|]. split; [exact Su|]. split; [split; [exact Gu|now apply arith_realv]|]. split.
      { intros w. cbn [teval]. rewrite Eu. destruct (teval u w) as [[y|y]|]; cbn; try rewrite Ev; reflexivity. }
      split; [exact Pe|]. split; [exact Nm|]. split; [now apply Sh|]. split; [intros []|]. intros H. now apply Over. }
    destruct (neqb c (nint 0)) eqn:Hc.
    - assert (E0 : terms_text p 0 (c :: cs) = terms_text p 1 cs) by (cbn [Render.terms_text]; rewrite term_zero by auto; reflexivity). apply zero_R in Hc.
      destruct (terms_text p 1 cs) as [|q qs] eqn:E1.
      { exact (False_ind _ (no_terms _ _ _ _ Ci' E1)). }
      rewrite E0. exists (fold_left joined qs q). inversion Tn as [|? ? (_ & Tq) Tqs]; subst.
      destruct (first_ok (fun g => Source.lookup g x = Ok (PTr (TId x))) p u' Pu Au cs 1 (le_n 1) Li1) as [(Z & _)|(q' & qs' & t & cs' & A1 & A2 & A3 & A4 & A5)]; [congruence|]. rewrite E1 in A1. injection A1 as <- <-. exists (TPoly u' cs'). destruct A5 as [-> |(_ & Z)].
      + split; [reflexivity|]. split; [reflexivity|]. apply Fin; auto.
        * intros y. rewrite A4. cbn [Rpoly pow]. rewrite Hc. ring.
        * intros z. rewrite joined_names by (eapply Forall_impl; [|exact Tqs]; cbn; tauto). rewrite Tq, Nu. split; [|auto]. intros [H|(r & Hr & H)]; auto. rewrite Forall_forall in Tqs. apply Nu, (Tqs r Hr), H.
      + exfalso. destruct k as [|[|k]]; [apply Ck; exact Hc|lia|]. assert (C2 : coeff (tl cs) k <> 0) by (destruct cs; [destruct k; exact Ck|exact Ck]). exact (C2 (Z _ (In_c _ _ C2))).
    - assert (E0 : terms_text p 0 (c :: cs) = Whole (XNum c) :: terms_text p 1 cs) by (cbn [Render.terms_text]; unfold term_text at 1; rewrite Hc; reflexivity). rewrite E0. exists (fold_left joined (terms_text p 1 cs) (Whole (XNum c))).
      destruct (fold_ok (fun g => Source.lookup g x = Ok (PTr (TId x))) p u' Pu Au cs 1 (Whole (XNum c)) (PNum c) [c] (le_n 1) Li1 (fun g _ => eq_refl) eq_refl (le_n 1)) as (v' & cs' & A1 & A2 & A3 & A4).
      destruct A4 as [(_ & Z)| ->]; [exact (False_ind _ (Ci' (Z _ (In_c _ _ Ci'))))|]. exists (TPoly u' cs'). split; [reflexivity|]. split; [reflexivity|]. apply Fin; auto.
      + intros y. rewrite A3. cbn [Rpoly pow]. ring.
      + intros z. rewrite joined_names by (eapply Forall_impl; [|exact Tn]; cbn; tauto). cbn [tree names In]. rewrite Forall_forall in Tn. split.
        * intros [[]|(r & Hr & H)]. apply Nu, (Tn r Hr), H.
        * intros ->. right. destruct (terms_text p 1 cs) as [|r rs] eqn:E1; [|exists r; split; [now left|apply Tn; [now left|now apply Nu]]]. exact (False_ind _ (no_terms _ _ _ _ Ci' E1)).
  Qed.
  Lemma all_shown : forall t, printable t -> good t -> exists x p t', symbols t = [x] /\ plain_name x /\ isdist x = false /\ show t = Ok p /\ shown t x p t'.
  Proof.
    induction t; intros P G; try contradiction.
    - destruct P as (P & D). exists x, (Whole (XName x)), (TId x). split; [reflexivity|]. split; [exact P|]. split; [exact D|]. split.
      { cbn [Render.show]. unfold token. destruct P as (P & _). rewrite P. reflexivity. }
      repeat split; cbn; auto. + intros [H|[]]; auto. + now left.
    - destruct P as (P & E). destruct G as (G & R & B). destruct (IHt P G) as (x & p & u' & Sx & Px & Dx & Hs & Au & Su & Gu & Eu & Pu & Nu & Tu & _).
      exists x, (Op BPow (Whole (XNum base)) (brackets p)), (TExp u' base). split; [exact Sx|]. split; [exact Px|]. split; [exact Dx|]. split; [cbn [Render.show]; rewrite Hs; cbn [bind]; now rewrite E|].
      split; [exact Au|]. split; [exact Su|]. split; [split; [exact Gu|split; [now apply arith_realv|exact B]]|]. split; [intros w; cbn [teval]; now rewrite Eu|]. split.
      { intros g Hg. cbn [tree brackets rewrite Source.peval]. rewrite (Pu g Hg). cbn [bind py_bin]. unfold rpow_num. destruct (nleb base (nint 0)) eqn:L; [|reflexivity]. exfalso. apply nleb_ok in L. rewrite nint_ok in L. lra. }
      split; [exact Nu|]. split; [right; cbn; eauto|]. split; [cbn; auto|reflexivity].
    - destruct P as (P & E). destruct G as (G & R). destruct (IHt P G) as (x & p & u' & Sx & Px & Dx & Hs & Au & Su & Gu & Eu & Pu & Nu & Tu & _ & Ov).
      exists x, (brackets (over p)), (TRecip u'). split; [exact Sx|]. split; [exact Px|]. split; [exact Dx|]. split; [cbn [Render.show]; rewrite Hs; reflexivity|]. rewrite (Ov E).
      split; [exact Au|]. split; [exact Su|]. split; [split; [exact Gu|now apply arith_realv]|]. split; [intros w; cbn [teval]; now rewrite Eu|]. split.
      { intros g Hg. cbn [tree brackets rewrite Source.peval]. rewrite (Pu g Hg). cbn [bind py_bin]. unfold rdiv_num. rewrite neqb_refl'. reflexivity. }
      split; [exact Nu|]. split; [right; cbn; eauto|]. split; [cbn; auto|reflexivity].
    - pose proof P as (P1 & _). destruct G as (G & R). destruct (IHt P1 G) as (x & p & u' & Sx & Px & Dx & Hs & Sh). destruct (poly_shown _ _ _ _ _ P Sh) as (q & t' & E1 & E2 & E3).
      exists x, q, t'. split; [exact Sx|]. split; [exact Px|]. split; [exact Dx|]. split; [rewrite E1, Hs; cbn [bind]; exact E2|exact E3].
  Qed.
  (** Printable transforms are shown well. *)
  Theorem C40_printable_shows : forall t, printable t -> good t -> shows t.
  Proof.
    intros t P G. destruct (all_shown t P G) as (x & p & t' & Sx & Px & Dx & Hs & Au & Su & Gu & Eu & Pu & Nu & Tu & _). exists p, t'. split; [exact Hs|]. split.
    - split; [destruct Tu as [->|(op & a & b & ->)]; reflexivity|]. split; [destruct Tu as [->|(op & a & b & ->)]; discriminate|]. split.
      + destruct (filter isdist (names (tree p))) as [|y l] eqn:E; [reflexivity|]. exfalso. assert (H : In y (filter isdist (names (tree p)))) by (rewrite E; now left). apply filter_In in H. destruct H as (H & H'). apply Nu in H. congruence.
      + exists x. split; [rewrite Sx; now left|now apply Nu].
    - split; [intros g Hg; apply Pu, Hg; rewrite Sx; now left|]. split; [exact Gu|]. split; [now apply arith_realv|]. split; [exists x; intros y Hy; rewrite Su in Hy; destruct Hy as [<-|[]]; reflexivity|]. split; [intros w; apply plain_regular, arith_plain, Au|]. split; [exact Eu|]. split; [rewrite Su; discriminate|]. intros y. now rewrite Su, Sx.
  Qed.
End Show.
