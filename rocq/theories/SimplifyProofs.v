(** Simplification of sums of products keeps the law. *)
From Coq Require Import List Bool String Reals Lra Lia ZArith QArith Qreals FunctionalExtensionality Permutation.
From Verif Require Import Base Num Sets SetSpec SetIv SetProofs SetOr SetOps SetAlg SetBuilt
  Poly Trans TransSpec TransFacts PolyProofs InvProofs InvMain EvProofs ArithProofs
  Dnf DnfSpec DnfProofs DnfUnion Logs Spe SpeSpec SpeFacts SpeRect LeafProofs LeafEvents LeafCond SpeCons LeafGiven MemoProofs NormSorts LogprobProofs SpeEq.
Import ListNotations.
Local Open Scope R_scope.

(** ** Matching two lists *)
Lemma filter_all : forall A (f : A -> bool) l, (forall x, In x l -> f x = true) -> filter f l = l.
Proof. induction l as [|x l IH]; intros H; simpl; auto. rewrite H by (now left). f_equal. apply IH. intros; apply H. now right. Qed.
Section Match.
  Context {A : Type} (e : A -> A -> bool).
  Definition dups_l (a b : list A) := filter (fun x => existsb (fun y => e x y) b) a.
  Definition dups_r (a b : list A) := filter (fun y => existsb (fun x => e x y) a) b.
  (** no element is equal to two elements of the other list *)
  Definition once_l (a b : list A) : Prop := ForallOrdPairs (fun x y => forall z, In z b -> e x z = true -> e y z = true -> False) a.
  Definition once_r (a b : list A) : Prop := ForallOrdPairs (fun y z => forall x, In x a -> e x y = true -> e x z = true -> False) b.

  Lemma filter_one : forall b x, (ForallOrdPairs (fun y z => e x y = true -> e x z = true -> False) b) ->
    List.length (filter (e x) b) = if existsb (e x) b then 1%nat else 0%nat.
  Proof.
    induction b as [|y b IH]; intros x H; [reflexivity|]. inversion H as [|? ? Hy Hb]; subst. cbn [filter existsb]. destruct (e x y) eqn:E.
    - cbn [List.length orb]. f_equal. rewrite IH by auto. destruct (existsb (e x) b) eqn:Ex; auto. exfalso. apply existsb_exists in Ex. destruct Ex as (z & Hz & Ez).
      rewrite Forall_forall in Hy. exact (Hy z Hz eq_refl Ez).
    - cbn [orb]. now apply IH.
  Qed.
  Lemma count_swap : forall a b, List.length (List.concat (map (fun y => filter (fun x => e x y) a) b)) = list_sum (map (fun x => List.length (filter (e x) b)) a).
  Proof.
    intros a b. induction b as [|y b IH].
    - cbn. induction a as [|x a IH]; auto.
    - cbn [map List.concat]. rewrite app_length, IH. clear IH. unfold list_sum. induction a as [|x a IH]; [reflexivity|].
      simpl in *. destruct (e x y); simpl; lia.
  Qed.
  Lemma count_dups : forall a b, once_r a b -> List.length (List.concat (map (fun y => filter (fun x => e x y) a) b)) = List.length (dups_l a b).
  Proof.
    intros a b O. rewrite count_swap. assert (K : forall x, In x a -> List.length (filter (e x) b) = if existsb (e x) b then 1%nat else 0%nat).
    { intros x Hx. apply filter_one. eapply FOP_weaken; [|exact O]. intros y z _ _ H Ey Ez. exact (H x Hx Ey Ez). }
    clear O. unfold dups_l. induction a as [|x a IH]; [reflexivity|]. cbn [map list_sum fold_right filter]. rewrite K by (now left). unfold list_sum in IH. rewrite IH by (intros; apply K; now right).
    destruct (existsb (e x) b) eqn:E.
    - replace (existsb (fun y => e x y) b) with true by (rewrite <- E; reflexivity). reflexivity.
    - replace (existsb (fun y => e x y) b) with false by (rewrite <- E; reflexivity). reflexivity.
  Qed.

  Lemma filter_same : forall (f g : A -> bool) l, (forall x, In x l -> f x = g x) -> filter f l = filter g l.
  Proof. intros. now apply filter_ext_in. Qed.
  Lemma FOP_remove : forall (P : A -> A -> Prop) b1 y b2, ForallOrdPairs P (b1 ++ y :: b2) -> ForallOrdPairs P (b1 ++ b2) /\ (forall z, In z b1 -> P z y) /\ (forall z, In z b2 -> P y z).
  Proof.
    induction b1 as [|x b1 IH]; intros y b2 H; simpl in *.
    - inversion H as [|? ? H1 H2]; subst. rewrite Forall_forall in H1. split; auto. split; [tauto|auto].
    - inversion H as [|? ? H1 H2]; subst. destruct (IH y b2 H2) as (K1 & K2 & K3). rewrite Forall_forall in H1. split; [|split; auto].
      + constructor; auto. apply Forall_forall. intros z Hz. apply H1. apply in_app_iff in Hz. apply in_app_iff. simpl. tauto.
      + intros z [<-|Hz]; auto. apply H1. apply in_app_iff. simpl. auto.
  Qed.
  Lemma match_prod : forall (F : A -> R) a b, once_l a b -> once_r a b -> (forall x y, In x a -> In y b -> e x y = true -> F x = F y) ->
    prodR (map F (dups_l a b)) = prodR (map F (dups_r a b)).
  Proof.
    intros F. induction a as [|x a IH]; intros b Ol Or HF.
    - unfold dups_l, dups_r. cbn. induction b as [|y b IHb]; auto. cbn. apply IHb; [constructor|inversion Or; auto|intros ? ? []].
    - inversion Ol as [|? ? Ox Oa]; subst. rewrite Forall_forall in Ox. destruct (existsb (fun y => e x y) b) eqn:Ex.
      + apply existsb_exists in Ex. destruct Ex as (y & Hy & Exy). destruct (in_split _ _ Hy) as (b1 & b2 & ->).
        destruct (FOP_remove _ b1 y b2 Or) as (Or' & R1 & R2).
        assert (Nx : forall z, In z (b1 ++ b2) -> e x z = false).
        { intros z Hz. destruct (e x z) eqn:Ez; auto. exfalso. apply in_app_iff in Hz. destruct Hz as [Hz|Hz]; [apply (R1 z Hz x)|apply (R2 z Hz x)]; simpl; auto. }
        assert (Ny : forall x', In x' a -> e x' y = false).
        { intros x' Hx. destruct (e x' y) eqn:Ez; auto. exfalso. apply (Ox x' Hx y); auto. }
        assert (El : dups_l (x :: a) (b1 ++ y :: b2) = x :: dups_l a (b1 ++ b2)).
        { unfold dups_l. cbn [filter]. replace (existsb (fun y0 => e x y0) (b1 ++ y :: b2)) with true.
          - f_equal. apply filter_same. intros x' Hx. rewrite !existsb_app. cbn [existsb]. rewrite (Ny x' Hx). reflexivity.
          - symmetry. apply existsb_exists. eauto. }
        assert (Er : Permutation (dups_r (x :: a) (b1 ++ y :: b2)) (y :: dups_r a (b1 ++ b2))).
        { unfold dups_r. rewrite !filter_app. cbn [filter existsb]. rewrite Exy. cbn [orb].
          rewrite (filter_same (fun y0 => e x y0 || existsb (fun x0 => e x0 y0) a)%bool (fun y0 => existsb (fun x0 => e x0 y0) a) b1) by (intros z Hz; rewrite Nx; auto; apply in_app_iff; auto).
          rewrite (filter_same (fun y0 => e x y0 || existsb (fun x0 => e x0 y0) a)%bool (fun y0 => existsb (fun x0 => e x0 y0) a) b2) by (intros z Hz; rewrite Nx; auto; apply in_app_iff; auto).
          symmetry. apply Permutation_middle. }
        rewrite El, (prodR_perm _ _ (Permutation_map F Er)). cbn [map prodR fold_right]. fold (prodR (map F (dups_l a (b1 ++ b2)))). fold (prodR (map F (dups_r a (b1 ++ b2)))).
        rewrite (HF x y) by (simpl; auto). f_equal. apply IH.
        * eapply FOP_weaken; [|exact Oa]. intros u v _ _ H z Hz. apply H. apply in_app_iff in Hz. apply in_app_iff. simpl. tauto.
        * eapply FOP_weaken; [|exact Or']. intros u v _ _ H z Hz. apply H. now right.
        * intros u v Hu Hv. apply HF; [now right|]. apply in_app_iff in Hv. apply in_app_iff. simpl. tauto.
      + assert (Nx : forall y, In y b -> e x y = false).
        { intros y Hy. destruct (e x y) eqn:E; auto. exfalso. assert (existsb (fun y => e x y) b = true) by (apply existsb_exists; eauto). congruence. }
        assert (El : dups_l (x :: a) b = dups_l a b) by (unfold dups_l; cbn [filter]; now rewrite Ex).
        assert (Er : dups_r (x :: a) b = dups_r a b) by (unfold dups_r; apply filter_same; intros y Hy; cbn [existsb]; now rewrite Nx).
        rewrite El, Er. apply IH; auto.
        * eapply FOP_weaken; [|exact Or]. intros u v _ _ H z Hz. apply H. now right.
        * intros u v Hu. apply HF. now right.
  Qed.
End Match.

Lemma FOP_in : forall A (P : A -> A -> Prop) l x y, ForallOrdPairs P l -> In x l -> In y l -> x = y \/ P x y \/ P y x.
Proof.
  intros A P l x y H. induction H as [|a l Ha H IH]; intros Hx Hy; [destruct Hx|]. rewrite Forall_forall in Ha. destruct Hx as [<-|Hx], Hy as [<-|Hy]; auto.
Qed.
Lemma FOP_filter : forall A (P : A -> A -> Prop) f l, ForallOrdPairs P l -> ForallOrdPairs P (filter f l).
Proof.
  intros A P f l H. induction H as [|a l Ha H IH]; simpl; [constructor|]. destruct (f a); auto. constructor; auto. rewrite Forall_forall in *. intros x Hx. apply filter_In in Hx. apply Ha. tauto.
Qed.

Section Simplify.
  Context {N : numsys} {S : logsys} {D : distsys N S}.
  Context (dlaw : dist D -> (fval -> R) -> R).
  Notation spe := (spe D).
  Notation den := (den dlaw).
  Notation wf_spe := (wf_spe dlaw).
  Context (Ed : eq_dist dlaw) (envof : string -> tenv (N:=N)).
  (** a property of expressions that includes [aenv]; it may say that weights are positive *)
  Context (P : spe -> Prop) (Pa : forall s, P s -> aenv envof s) (Q : Prop).
  Context (Ps : forall l, P (SumSPE l) <-> (Q -> Forall (fun c => 0 < toP (snd c)) l)) (Pp : forall l, P (ProductSPE l)).

  Lemma vars_some : forall s, wf_spe s -> exists x, vars s x.
  Proof.
    assert (B : forall X env, env_built (N:=N) X env -> exists x, In x (map fst env)).
    { intros X env B. induction B as [|env y t B (x & Hx) Fr Sy]; [exists X; now left|]. exists x. rewrite map_app. apply in_app_iff. auto. }
    induction s using spe_ind'; intros W.
    - apply (B x). apply W.
    - apply (B x). apply W.
    - exists x. reflexivity.
    - pose proof (sum_nonempty dlaw l W) as Ne. destruct l as [|c l]; [tauto|]. apply (H c (or_introl eq_refl)). apply (sum_wf dlaw _ W). now left.
    - destruct l as [|c l]; [destruct W; tauto|]. destruct (H c (or_introl eq_refl)) as (x & Hx); [apply (prod_wf dlaw _ W); now left|]. exists x. cbn. auto.
  Qed.

  Lemma mk_Sum_terms : forall (cs : list spe) (ws : list (lg S)) t, mk_Sum cs ws = Ok t ->
    t = SumSPE (List.concat (map (fun p => sum_terms (fst p) (snd p)) (combine cs ws))).
  Proof. intros cs ws t H. unfold mk_Sum in H. inv_bind H. inv_bind H. inv_bind H. inv_bind H. destruct r2; [|discriminate]. now injection H as <-. Qed.
  Lemma mk_Sum_every : forall cs ws t, Forall (every P) cs -> (Q -> Forall (fun w => 0 < toP w) ws) -> mk_Sum cs ws = Ok t -> every P t.
  Proof.
    intros cs ws t F Fw H. apply mk_Sum_terms in H. subst t. rewrite Forall_forall in F.
    split; [apply Ps; intros q; specialize (Fw q); rewrite Forall_forall in Fw; apply Forall_forall|apply all_forall]; intros d Hd;
      apply in_concat in Hd; destruct Hd as (m & Hm & Hd); apply in_map_iff in Hm; destruct Hm as ((c, w) & <- & Hp); pose proof (in_combine_l _ _ _ _ Hp) as Hc; pose proof (in_combine_r _ _ _ _ Hp) as Hw; specialize (F c Hc); cbn [fst snd] in Hd.
    - specialize (Fw w Hw). destruct c as [| | |l|]; try (destruct Hd as [<-|[]]; exact Fw). cbn [sum_terms] in Hd. apply in_map_iff in Hd. destruct Hd as (u & <- & Hu). cbn [snd]. rewrite ladd_ok.
      apply Rmult_lt_0_compat; auto. apply every_here in F. apply Ps in F; auto. rewrite Forall_forall in F. auto.
    - destruct c; try (destruct Hd as [<-|[]]; exact F). cbn [sum_terms] in Hd. apply in_map_iff in Hd. destruct Hd as (u & <- & Hu). cbn [fst]. eapply every_sum; eauto.
  Qed.
  Lemma mk_Product_every : forall cs t, Forall (every P) cs -> mk_Product cs = Ok t -> every P t.
  Proof.
    intros cs t F H. unfold mk_Product in H. inv_bind H. destruct r; [|discriminate]. injection H as <-. split; [apply Pp|]. apply all_forall. intros d Hd. apply in_concat in Hd. destruct Hd as (m & Hm & Hd).
    apply in_map_iff in Hm. destruct Hm as (c & <- & Hc). rewrite Forall_forall in F. specialize (F c Hc). destruct c; try (destruct Hd as [<-|[]]; exact F). cbn [prod_terms] in Hd. eapply every_prod; eauto.
  Qed.

  (** the children of a product *)
  Definition parts_ok (a : list spe) : Prop := Forall (fun c => wf_spe c /\ every P c) a /\ ForallOrdPairs (apart (D:=D)) a.
  Lemma parts_wf : forall a, parts_ok a -> All wf_spe a.
  Proof. intros a (F & _). apply all_forall. rewrite Forall_forall in F. intros c Hc. now apply F. Qed.
  Lemma list_product_ok : forall a t, parts_ok a -> spe_list_to_product a = Ok t ->
    a <> [] /\ wf_spe t /\ every P t /\ (forall x, vars t x <-> pvars a x) /\ forall f w, den t f w = den_prod den a f w.
  Proof.
    intros a t (F & Ap) H. unfold spe_list_to_product in H. destruct a as [|c [|c' a]].
    - unfold mk_Product in H. discriminate H.
    - injection H as <-. inversion F as [|? ? (Wc & Pc) _]; subst. split; [discriminate|]. split; auto. split; auto. split; [|reflexivity]. intros x. rewrite pvars_cons. unfold pvars. cbn. tauto.
    - assert (Wc : Forall wf_spe (c :: c' :: a)) by (eapply Forall_impl; [|exact F]; intros y (K & _); exact K).
      assert (Pc : Forall (every P) (c :: c' :: a)) by (eapply Forall_impl; [|exact F]; intros y (_ & K); exact K).
      destruct (mk_Product_ok dlaw _ _ Wc H) as (A & _ & B & _ & _ & C). split; [discriminate|]. split; auto. split; [now apply (mk_Product_every _ _ Pc H)|]. split; auto. intros x. rewrite B, pvars_in. tauto.
  Qed.
  Lemma parts_filter : forall f a, parts_ok a -> parts_ok (filter f a).
  Proof.
    intros f a (F & Ap). split; [|now apply FOP_filter]. rewrite Forall_forall in *. intros x Hx. apply filter_In in Hx. apply F. tauto.
  Qed.
  Lemma eqb_vars : forall a b x y, parts_ok a -> parts_ok b -> In x a -> In y b -> speqb x y = true ->
    (forall f w, den x f w = den y f w) /\ forall z, vars x z <-> vars y z.
  Proof.
    intros a b x y (Fa & _) (Fb & _) Hx Hy H. rewrite Forall_forall in Fa, Fb. destruct (Fa x Hx) as (Wx & Px), (Fb y Hy) as (Wy & Py).
    apply (speqb_ok dlaw Ed envof); auto; eapply every_impl; eauto.
  Qed.
  Lemma parts_once_l : forall a b, parts_ok a -> parts_ok b -> once_l (speqb (D:=D)) a b.
  Proof.
    intros a b Pa' Pb. eapply FOP_weaken; [|exact (proj2 Pa')]. intros x y Hx Hy Ap z Hz Exz Eyz.
    destruct (vars_some z) as (v & Hv); [destruct Pb as (Fb & _); rewrite Forall_forall in Fb; now apply Fb|].
    apply (Ap v); [apply (eqb_vars a b x z)|apply (eqb_vars a b y z)]; auto.
  Qed.
  Lemma parts_once_r : forall a b, parts_ok a -> parts_ok b -> once_r (speqb (D:=D)) a b.
  Proof.
    intros a b Pa' Pb. eapply FOP_weaken; [|exact (proj2 Pb)]. intros x y Hx Hy Ap z Hz Exz Eyz.
    destruct (vars_some z) as (v & Hv); [destruct Pa' as (Fb & _); rewrite Forall_forall in Fb; now apply Fb|].
    apply (Ap v); [apply (eqb_vars a b z x)|apply (eqb_vars a b z y)]; auto.
  Qed.

  Definition at_rect (L : list (string * (fval -> R))) (w : asg) (c : spe) : R := den c (rect (inside (vars c) L)) w.
  Lemma parts_rect : forall a L w, parts_ok a -> rect_ok L ->
    den_prod den a (rect L) w = prodR (map (at_rect L w) a) * rect (outside (pvars a) L) w.
  Proof. intros a L w Pk HL. apply prod_rect; auto; [now apply parts_wf|apply Pk]. Qed.
  Lemma at_rect_eq : forall a b L w x y, parts_ok a -> parts_ok b -> In x a -> In y b -> speqb x y = true -> at_rect L w x = at_rect L w y.
  Proof.
    intros a b L w x y Pa' Pb Hx Hy H. destruct (eqb_vars a b x y Pa' Pb Hx Hy H) as (E1 & E2). unfold at_rect. rewrite (inside_ext _ _ _ L E2). apply E1.
  Qed.
  Lemma prod_filter : forall (F : spe -> R) f a, prodR (map F a) = prodR (map F (filter f a)) * prodR (map F (filter (fun c => negb (f c)) a)).
  Proof.
    intros F f a. induction a as [|c a IH]; simpl; [ring|]. unfold prodR in *. destruct (f c); simpl; rewrite IH; ring.
  Qed.

  Lemma helper_ok : forall a wa b wb a' w', parts_ok a -> parts_ok b -> (forall x, pvars a x <-> pvars b x) -> 0 < toP wa -> (Q -> 0 < toP wb) ->
    simplify_helper (a, wa) b wb = Ok (a', w') ->
    parts_ok a' /\ (forall x, pvars a' x <-> pvars a x) /\ toP w' = toP wa + toP wb /\
    forall L w, rect_ok L -> toP w' * den_prod den a' (rect L) w = toP wa * den_prod den a (rect L) w + toP wb * den_prod den b (rect L) w.
  Proof.
    intros a wa b wb a' w' Ka Kb Vab Pw Pwb H. unfold simplify_helper in H. inv_bind H. inv_bind H. rename r into ws. rename r0 into ww.
    apply lse_sum in E0. destruct E0 as (_ & E0). cbn [map sumR fold_right] in E0. rewrite Rplus_0_r in E0. pose proof (toP_nonneg S wb) as Nb.
    apply lognorm_ok in E; [|now left]. destruct E as (Fw & Tw). cbn [map sumR fold_right] in Fw. rewrite Rplus_0_r in Fw.
    assert (Fq : Q -> Forall (fun w => 0 < toP w) ws).
    { intros q. specialize (Pwb q). inversion Fw as [|? u ? us Eu Fw']; subst. inversion Fw' as [|? v ? vs Ev Fw'']; subst. inversion Fw''; subst. constructor; [|constructor; [|constructor]]; [rewrite Eu|rewrite Ev]; apply Rdiv_lt_0_compat; lra. }
    assert (Mix : forall pa pb t, wf_spe pa -> wf_spe pb -> mk_Sum [pa; pb] ws = Ok t ->
      wf_spe t /\ (forall x, vars t x <-> vars pa x) /\ (forall x, vars t x <-> vars pb x) /\ forall f w, (toP wa + toP wb) * den t f w = toP wa * den pa f w + toP wb * den pb f w).
    { intros pa pb t Wpa Wpb Ht. destruct (mk_Sum_ok dlaw [pa; pb] ws t) as (_ & A & _ & V & Dn); auto. split; auto. split; [intros x; apply V; now left|]. split; [intros x; apply V; right; now left|].
      intros f w. rewrite Dn. inversion Fw as [|? u ? us Eu Fw']; subst. inversion Fw' as [|? v ? vs Ev Fw'']; subst. inversion Fw''; subst. cbn [combine map sumR fold_right fst snd]. rewrite Eu, Ev. field. lra. }
    pose proof (parts_once_l a b Ka Kb) as Ol. pose proof (parts_once_r a b Ka Kb) as Or.
    rewrite (count_dups (speqb (D:=D)) a b Or) in H.
    destruct (Nat.eqb (List.length (dups_l speqb a b)) 0) eqn:E1; [|destruct (Nat.eqb_spec (List.length (dups_l speqb a b)) (List.length a)) as [E2|E2]].
    - (* nothing in common *)
      inv_bind H. inv_bind H. inv_bind H. injection H as <- <-. destruct (list_product_ok a r Ka E) as (_ & Wa & Pea & Va & Da). destruct (list_product_ok b r0 Kb E2) as (_ & Wb & Peb & Vb & Db).
      destruct (Mix r r0 r1 Wa Wb E3) as (Wt & Vt & _ & Dt). split; [|split; [|split; auto]].
      + split; [|repeat constructor]. constructor; auto. split; auto. apply (mk_Sum_every [r; r0] ws); auto.
      + intros x. rewrite pvars_cons. unfold pvars at 1. cbn [vars Any]. rewrite Vt, Va. tauto.
      + intros L w HL. cbn [SpeSpec.den_prod]. rewrite E0, Dt, Da, Db. reflexivity.
    - (* the same children *)
      injection H as <- <-. split; auto. split; [tauto|]. split; auto. intros L w HL. rewrite E0, !parts_rect by auto.
      assert (Ea : dups_l speqb a b = a).
      { apply filter_all. intros x Hx. exact (filter_full _ _ _ E2 x Hx). }
      assert (Eb : dups_r (speqb (D:=D)) a b = b).
      { apply filter_all. intros y Hy. destruct (existsb (fun x => speqb x y) a) eqn:Ex; auto. exfalso.
        assert (Wy : wf_spe y) by (destruct Kb as (Fb & _); rewrite Forall_forall in Fb; now apply Fb). destruct (vars_some y Wy) as (v & Hv).
        assert (Hp : pvars b v) by (apply pvars_in; eauto). apply Vab in Hp. apply pvars_in in Hp. destruct Hp as (x & Hx & Vx).
        rewrite <- Ea in Hx. unfold dups_l in Hx. apply filter_In in Hx. destruct Hx as (Hx & Exb). apply existsb_exists in Exb. destruct Exb as (z & Hz & Exz).
        assert (Vz : vars z v) by (apply (eqb_vars a b x z Ka Kb Hx Hz Exz); auto).
        destruct (FOP_in _ _ _ y z (proj2 Kb) Hy Hz) as [<-|[K|K]]; [|exact (K v Hv Vz)|exact (K v Vz Hv)].
        assert (existsb (fun x => speqb x y) a = true) by (apply existsb_exists; eauto). congruence. }
      pose proof (match_prod (speqb (D:=D)) (at_rect L w) a b Ol Or (fun x y Hx Hy Exy => at_rect_eq a b L w x y Ka Kb Hx Hy Exy)) as Mp. rewrite Ea, Eb in Mp.
      rewrite Mp, (outside_ext _ _ _ L Vab). ring.
    - (* some in common *)
      inv_bind H. inv_bind H. inv_bind H. injection H as <- <-.
      destruct (list_product_ok _ r (parts_filter _ a Ka) E) as (_ & Wa & Pea & Va & Da). destruct (list_product_ok _ r0 (parts_filter _ b Kb) E3) as (_ & Wb & Peb & Vb & Db).
      destruct (Mix r r0 r1 Wa Wb E4) as (Wt & Vt & Vt' & Dt).
      set (ua := filter (fun c => negb (existsb (fun cb => speqb c cb) b)) a) in *. set (ub := filter (fun c => negb (existsb (fun ca => speqb ca c) a)) b) in *.
      set (da := filter (fun ca => existsb (fun cb => speqb ca cb) b) a) in *. change da with (dups_l speqb a b) in *.
      assert (Kd : parts_ok (dups_l speqb a b)) by now apply parts_filter.
      assert (K' : parts_ok (r1 :: dups_l speqb a b)).
      { split; [constructor; [|apply Kd]|constructor; [|apply Kd]].
        - split; auto. apply (mk_Sum_every [r; r0] ws); auto.
        - apply Forall_forall. intros d Hd x Hx Hy. apply Vt, Va in Hx. apply pvars_in in Hx. destruct Hx as (c & Hc & Hx). unfold ua in Hc. apply filter_In in Hc. unfold dups_l in Hd. apply filter_In in Hd.
          destruct (FOP_in _ _ _ c d (proj2 Ka)) as [<-|[K|K]]; try tauto; [destruct Hc as (_ & Hc), Hd as (_ & Hd); rewrite Hd in Hc; discriminate|exact (K x Hx Hy)|exact (K x Hy Hx)]. }
      split; auto.
      assert (Va' : forall x, pvars (r1 :: dups_l speqb a b) x <-> pvars a x).
      { intros x. rewrite pvars_cons, Vt, Va, !pvars_in. unfold ua, dups_l. split.
        - intros [(c & Hc & Hx)|(c & Hc & Hx)]; apply filter_In in Hc; exists c; tauto.
        - intros (c & Hc & Hx). destruct (existsb (fun y => speqb c y) b) eqn:Ec; [right|left]; exists c; (split; [|auto]); apply filter_In; rewrite ?Ec; auto. }
      split; auto. split; auto. intros L w HL. rewrite E0, !parts_rect by auto. rewrite (outside_ext _ _ _ L Va'), <- (outside_ext _ _ _ L Vab). cbn [map prodR fold_right]. fold (prodR (map (at_rect L w) (dups_l speqb a b))).
      rewrite (prod_filter (at_rect L w) (fun ca => existsb (fun cb => speqb ca cb) b) a), (prod_filter (at_rect L w) (fun cb => existsb (fun ca => speqb ca cb) a) b).
      change (filter (fun ca => existsb (fun cb => speqb ca cb) b) a) with (dups_l speqb a b). change (filter (fun cb => existsb (fun ca => speqb ca cb) a) b) with (dups_r speqb a b). fold ua ub.
      rewrite <- (match_prod (speqb (D:=D)) (at_rect L w) a b Ol Or (fun x y Hx Hy Exy => at_rect_eq a b L w x y Ka Kb Hx Hy Exy)).
      (* the new child *)
      assert (Er : (toP wa + toP wb) * at_rect L w r1 = toP wa * prodR (map (at_rect L w) ua) + toP wb * prodR (map (at_rect L w) ub)).
      { assert (Qm : forall c (m : list spe), parts_ok m -> (forall f w, den c f w = den_prod den m f w) -> (forall x, vars c x <-> pvars m x) ->
          den c (rect (inside (vars r1) L)) w = prodR (map (at_rect L w) m) * rect (outside (pvars m) (inside (vars r1) L)) w \/ ~ (forall x, vars r1 x <-> vars c x)).
        { intros c m Km Dc Vc. destruct (dec (forall x, vars r1 x <-> vars c x)) as [Ve|]; [left|right; auto]. rewrite Dc, parts_rect by auto using rect_ok_inside. f_equal.
          apply prodR_ext. intros d Hd. unfold at_rect. f_equal. f_equal. unfold inside. rewrite filter_filter. apply filter_ext. intros p. destruct (decb (vars d (fst p))) eqn:Edp; [|apply andb_false_r].
          apply (proj1 (decb_true _)) in Edp. replace (decb (vars r1 (fst p))) with true; auto. symmetry. apply decb_true. apply Ve, Vc. apply pvars_in. eauto. }
        assert (Out : forall m : list spe, (forall x, pvars m x <-> vars r1 x) -> rect (outside (pvars m) (inside (vars r1) L)) w = 1).
        { intros m Hm. replace (outside (pvars m) (inside (vars r1) L)) with (@nil (string * (fval -> R))); [reflexivity|]. symmetry.
          destruct (outside (pvars m) (inside (vars r1) L)) as [|p l0] eqn:Eo; auto. exfalso. assert (Hin : In p (outside (pvars m) (inside (vars r1) L))) by (rewrite Eo; now left).
          apply outside_in in Hin. destruct Hin as (Hin & Hn). apply inside_in in Hin. apply Hn, Hm. tauto. }
        unfold at_rect at 1. rewrite Dt.
        destruct (Qm r ua (parts_filter _ a Ka) Da Va) as [Q1|Q1]; [|exfalso; apply Q1; exact Vt]. destruct (Qm r0 ub (parts_filter _ b Kb) Db Vb) as [Q2|Q2]; [|exfalso; apply Q2; exact Vt'].
        rewrite Q1, Q2, (Out ua), (Out ub) by (intros x; rewrite <- ?Va, <- ?Vb, <- ?Vt, <- ?Vt'; tauto). ring. }
      replace ((toP wa + toP wb) * (at_rect L w r1 * prodR (map (at_rect L w) (dups_l speqb a b)) * rect (outside (pvars a) L) w))
        with ((toP wa + toP wb) * at_rect L w r1 * (prodR (map (at_rect L w) (dups_l speqb a b)) * rect (outside (pvars a) L) w)) by ring.
      rewrite Er. ring.
  Qed.

  Lemma fold_helper_ok : forall l a wa a' w', parts_ok a -> Forall (fun c => parts_ok (product_children (fst c))) l ->
    Forall (fun c => forall x, pvars a x <-> pvars (product_children (fst c)) x) l -> 0 < toP wa -> (Q -> Forall (fun c => 0 < toP (snd c)) l) ->
    foldM (fun st c => simplify_helper st (product_children (fst c)) (snd c)) l (a, wa) = Ok (a', w') ->
    parts_ok a' /\ (forall x, pvars a' x <-> pvars a x) /\ toP w' = toP wa + sumR (map (fun c => toP (snd c)) l) /\
    forall L w, rect_ok L -> toP w' * den_prod den a' (rect L) w =
      toP wa * den_prod den a (rect L) w + sumR (map (fun c => toP (snd c) * den_prod den (product_children (fst c)) (rect L) w) l).
  Proof.
    induction l as [|c l IH]; intros a wa a' w' Ka Fk Fv Pw Pl H; cbn [foldM] in H.
    - injection H as <- <-. split; auto. split; [tauto|]. cbn [map sumR fold_right]. split; [ring|]. intros; ring.
    - inversion Fk as [|? ? Kc Fk']; subst. inversion Fv as [|? ? Vc Fv']; subst. inv_bind H. destruct r as (a1, w1).
      destruct (helper_ok a wa _ _ a1 w1 Ka Kc Vc Pw (fun q => Forall_inv (Pl q)) E) as (K1 & V1 & T1 & D1). pose proof (toP_nonneg S (snd c)) as Nn.
      assert (Fv1 : Forall (fun c0 => forall x, pvars a1 x <-> pvars (product_children (fst c0)) x) l).
      { eapply Forall_impl; [|exact Fv']. intros d Hd x. rewrite V1. apply Hd. }
      destruct (IH a1 w1 a' w' K1 Fk' Fv1) as (K2 & V2 & T2 & D2); auto; [lra|intros q; exact (Forall_inv_tail (Pl q))|]. split; auto. split; [intros x; rewrite V2; apply V1|].
      cbn [map sumR fold_right]. fold (sumR (map (fun c => toP (snd c)) l)). split; [lra|]. intros L w HL. rewrite D2, D1 by auto.
      fold (sumR (map (fun c => toP (snd c) * den_prod den (product_children (fst c)) (rect L) w) l)). ring.
  Qed.
  Theorem simplify_product_ok : forall l t, wf_spe (SumSPE l) -> every P (SumSPE l) -> (forall c m, l = c :: m -> 0 < toP (snd c)) ->
    simplify_sum_product l = Ok t ->
    wf_spe t /\ every P t /\ (forall x, vars t x <-> vars (SumSPE l) x) /\ same_law dlaw (SumSPE l) t.
  Proof.
    intros l t W Pe Fp H. unfold simplify_sum_product in H. destruct (forallb (fun c => is_product (fst c)) l) eqn:Ep.
    2: { injection H as <-. split; auto. split; auto. split; [tauto|]. intros f Hf w. reflexivity. }
    destruct l as [|(c, wc) l]; [discriminate|]. inv_bind H. inv_bind H. inv_bind H. destruct r as (a', w'). cbn [fst snd] in *. rewrite forallb_forall in Ep.
    assert (Kc : forall d, In d ((c, wc) :: l) -> parts_ok (product_children (fst d)) /\ (forall x, vars (fst d) x <-> pvars (product_children (fst d)) x) /\ forall f w, den (fst d) f w = den_prod den (product_children (fst d)) f w).
    { intros d Hd. pose proof (Ep d Hd) as Ip. pose proof (sum_wf dlaw _ W d Hd) as Wd. pose proof (every_sum P _ d Pe Hd) as Pd. destruct (fst d) as [| | | |m]; try discriminate. cbn [product_children].
      split; [|split; [reflexivity|reflexivity]]. split; [|apply Wd]. apply Forall_forall. intros y Hy. split; [eapply prod_wf; eauto|eapply every_prod; eauto]. }
    pose proof (Fp _ _ eq_refl) as Pc. cbn [snd] in Pc.
    destruct (fold_helper_ok l (product_children c) wc a' w') as (Ka & Va & Ta & Da); auto.
    - apply (Kc (c, wc)). now left.
    - apply Forall_forall. intros d Hd. apply Kc. now right.
    - apply Forall_forall. intros d Hd x. rewrite <- (proj1 (proj2 (Kc (c, wc) (or_introl eq_refl)))), <- (proj1 (proj2 (Kc d (or_intror Hd)))). cbn [fst].
      rewrite <- (sum_vars dlaw _ _ W (or_introl eq_refl)), <- (sum_vars dlaw _ d W (or_intror Hd)). tauto.
    - intros q. apply every_here in Pe. exact (Forall_inv_tail (proj1 (Ps _) Pe q)).
    - destruct (list_product_ok a' t Ka H) as (_ & Wt & Pt & Vt & Dt). split; auto. split; auto. split.
      + intros x. rewrite Vt, Va. cbn [vars]. rewrite <- (proj1 (proj2 (Kc (c, wc) (or_introl eq_refl)))). tauto.
      + apply same_law_rect; auto. intros L w HL. rewrite Dt. specialize (Da L w HL). assert (T1 : toP w' = 1).
        { rewrite Ta. destruct W as (_ & W1 & _). exact W1. }
        rewrite T1, Rmult_1_l in Da. rewrite Da. cbn [SpeSpec.den map sumR fold_right fst snd].
        rewrite <- (proj2 (proj2 (Kc (c, wc) (or_introl eq_refl)))). cbn [fst]. f_equal. fold (sumR (map (fun d => toP (snd d) * den (fst d) (rect L) w) l)).
        apply sumR_ext. intros d Hd. f_equal. apply (Kc d). now right.
  Qed.
End Simplify.
