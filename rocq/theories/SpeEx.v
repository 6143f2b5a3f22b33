(** A concrete expression for the examples. *)
From Coq Require Import List Bool String Reals Lra Lia ZArith QArith Qabs Qreals FunctionalExtensionality.
From Verif Require Import Base Num Sets SetSpec SetIv SetProofs SetOr SetOps SetAlg SetBuilt
  Poly Trans TransSpec TransFacts PolyProofs InvProofs InvMain EvProofs ArithProofs PolyEx
  Dnf DnfSpec DnfProofs DnfUnion Logs Spe SpeSpec SpeFacts SpeRect LeafProofs LeafEvents LeafCond SpeCons LeafGiven MemoProofs PropTrans NormSorts LogprobProofs LogprobTop SpeEq SimplifyProofs CondTypes CondProofs CondTop PropSpe Uniform Instances.
Import ListNotations.
Local Open Scope R_scope.
Local Open Scope string_scope.

Notation spQ := (spe DQ).
Definition X : tr QS := TId "X".
Definition Z2 : tr QS := TPoly X [1;2]%Q.
(** Z is defined as 2*X + 1 *)
Definition exenv : tenv (N:=QS) := [("X", X); ("Z", Z2)].
Definition i01 : interval QS := mkIv (qn 0) (qn 1) false false.
Definition i03 : interval QS := mkIv (qn 0) (qn 3) false false.
Definition ux : spQ := RealLeaf (D:=DQ) false "X" DUnif i01 false exenv.
Definition dl : list (Z * Q) := [(0%Z, 1#2); (2%Z, 1#4); (3%Z, 1#4)]%Q.
Definition dx : spQ := RealLeaf (D:=DQ) true "X" (DFin dl) i03 false exenv.
Definition ax : spQ := AtomicLeaf (N:=QS) "X" 5%Q exenv.
Definition y1 : spQ := NominalLeaf "Y" [("a", 1#4); ("b", 3#4)]%Q.
Definition y2 : spQ := NominalLeaf "Y" [("a", 1#2); ("b", 1#2)]%Q.
Definition p1 : spQ := ProductSPE [ux; y1].
Definition p2 : spQ := ProductSPE [dx; y2].
Definition p3 : spQ := ProductSPE [ax; y1].
Definition sx : spQ := SumSPE (S:=LQ) [(p1, 1#2); (p2, 1#4); (p3, 1#4)]%Q.

(** (Z < 2) | ((X >= 2) & (Y << {'a'})) *)
Definition zlt : tr QS := EBasic KInt (TId "Z") (iv NInf (qn 2) true true).
Definition xge : tr QS := EBasic KInt X (iv (qn 2) PInf false true).
Definition yina : tr QS := EBasic KNom (TId "Y") (fn ["a"]).
Definition exev : tr QS := EOr [zlt; EAnd [xge; yina]].
(** ((Z < 3) & (Y << {'a'})) | (X >= 2) *)
Definition zlt3 : tr QS := EBasic KInt (TId "Z") (iv NInf (qn 3) true true).
Definition exev2 : tr QS := EOr [EAnd [zlt3; yina]; xge].

(** the distribution given the second event: see C24 below *)
Definition ux1 : spQ := RealLeaf (D:=DQ) false "X" DUnif (mkIv (qn 0) (qn 1) false true) true exenv.
Definition dx1 : spQ := RealLeaf (D:=DQ) true "X" (DFin dl) (mkIv (qn 0) (qn 1) false true) true exenv.
Definition dx2 : spQ := RealLeaf (D:=DQ) true "X" (DFin dl) (mkIv (qn 2) (qn 3) false false) true exenv.
Definition t1 : spQ := ProductSPE [ux1; NominalLeaf "Y" [("a", 4#4); ("b", 0)]%Q].
Definition t2 : spQ := ProductSPE [dx1; NominalLeaf "Y" [("a", 2#2); ("b", 0)]%Q].
Definition t3 : spQ := ProductSPE [dx2; y2].
Definition tx : spQ := SumSPE (S:=LQ) [(t1, 2#9); (t2, 1#9); (t3, 2#9); (p3, 4#9)]%Q.

(** identities *)
Fixpoint index (l : list spQ) (s : spQ) : nat := match l with [] => 0%nat | a :: l => if speqb a s then 1%nat else Datatypes.S (index l s) end.
Definition exident (s : spQ) : nat :=
  (match s with NominalLeaf _ ((_, q) :: _) => 20 * Pos.to_nat (Qden q) | _ => 0 end + index [sx; p1; p2; p3; ux; dx; ax; y1; y2; tx; t1; t2; t3; ux1; dx1; dx2] s)%nat.
Definition po := po_small QS.
Definition so_id : strorder := Strorder (fun l => l) (fun l => Permutation.Permutation_refl l).
Definition exhash (s : spQ) : Z := Z.of_nat (exident s).

(** ** The expression is well formed *)
Lemma ex_lookup : forall x t, lookup x exenv = Some t -> (x = "X" /\ t = X) \/ (x = "Z" /\ t = Z2).
Proof.
  intros x t H. unfold exenv, lookup in H. destruct (String.eqb x "X") eqn:E1; [apply String.eqb_eq in E1; injection H as <-; auto|]. destruct (String.eqb x "Z") eqn:E2; [apply String.eqb_eq in E2; injection H as <-; auto|discriminate].
Qed.
Lemma ex_env_ok : env_ok "X" exenv.
Proof.
  split.
  - apply (built_ext "X" [("X", TId "X")] "Z" Z2); [constructor| |].
    + intros [H|[]]. discriminate.
    + intros s [<-|[]]. now left.
  - intros x t H. destruct (ex_lookup x t H) as [(-> & ->)|(-> & ->)]; [split; exact Logic.I|split; [split|]; exact Logic.I].
Qed.
Lemma ex_fine : forall w v, is_num v -> env_fine exenv (place "X" exenv w v).
Proof.
  intros w v (r & ->). split; intros x t H; destruct (ex_lookup x t H) as [(-> & ->)|(-> & ->)]; reflexivity || exact Logic.I.
Qed.
Lemma real_wf : forall disc d supp (cond : bool), wf_iv supp -> (disc = true -> disc_supp (D:=DQ) elaw d supp) -> dist_ok (D:=DQ) elaw disc d ->
  (if cond then 0 < elaw d (ind (in_iv supp)) else elaw d (ind (in_iv supp)) = 1) -> wf_leaf elaw (RealLeaf (D:=DQ) disc "X" d supp cond exenv).
Proof.
  intros disc d supp cond W Ds Dk Hc. refine (conj W (conj Ds (conj Dk (conj Hc (conj ex_env_ok _))))). intros w. cbn [den]. pose proof (law_full (d_law _ _ _ Dk) _ (d_num _ _ _ Dk)) as Z.
  assert (K : forall v, ~ ~ is_num v -> ind (fun w => ~ env_fine exenv w) (place "X" exenv w v) = 0) by (intros v Hv; apply ind_false; intros K; apply K, ex_fine; destruct (dec (is_num v)); tauto).
  unfold real_law. destruct cond.
  - rewrite (law_null (d_law _ _ _ Dk) _ (fun v => ind (fun w => ~ env_fine exenv w) (place "X" exenv w v) * ind (in_iv supp) v) Z); [unfold Rdiv; ring| |].
    + auto with bnd.
    + intros v Hv. rewrite (K v Hv). ring.
  - apply (law_null (d_law _ _ _ Dk) _ _ Z); auto with bnd.
Qed.
Lemma ax_wf : wf_leaf elaw ax.
Proof.
  split; [exact ex_env_ok|]. intros w. cbn [den ax]. apply ind_false. intros K. apply K, ex_fine. eexists; reflexivity.
Qed.
Lemma dl_ok : fin_ok dl.
Proof. split; [|reflexivity]. repeat constructor; discriminate. Qed.
Lemma unif_supp : forall supp, (forall r, 0 < r <= 1 -> in_iv supp (FNum r)) -> elaw DUnif (ind (in_iv (N:=QS) supp)) = 1.
Proof.
  intros supp H. pose proof (law_01 unif_law (in_iv supp)) as (_ & K). apply Rle_antisym; [exact K|]. cbn [elaw].
  pose proof (unif_cdf (Fin 1)) as C1. pose proof (unif_cdf (Fin 0)) as C0. cbn [clamp] in *. rewrite Rmax_right, Rmin_left in C1 by lra. rewrite Rmax_left, Rmin_right in C0 by lra.
  replace 1 with (unif (ind (at_most (Fin 1))) - unif (ind (at_most (Fin 0)))) by lra. rewrite <- (law_minus unif_law) by auto with bnd. apply (law_mono unif_law); auto with bnd.
  intros v. destruct (dec (at_most (Fin 1) v)) as [A1|A1].
  - rewrite (ind_true _ (at_most (Fin 1))) by auto. destruct (dec (at_most (Fin 0) v)) as [A0|A0]; [rewrite ind_true by auto; pose proof (ind_01 _ (in_iv supp) v); lra|].
    rewrite (ind_true _ (in_iv supp)); [rewrite ind_false by auto; lra|]. destruct A1 as (r & -> & A1). apply ele_fin in A1. apply H. split; auto. apply Rnot_le_lt. intros Hr. apply A0. exists r. split; auto. now apply ele_fin.
  - rewrite (ind_false _ (at_most (Fin 1))) by auto. pose proof (ind_01 _ (in_iv supp) v). pose proof (ind_01 _ (at_most (Fin 0)) v). lra.
Qed.
Lemma Q2R_lt : forall a b : Q, Qltb a b = true -> Q2R a < Q2R b.
Proof. intros a b H. now apply Qltb_ok. Qed.
Lemma iv_wf : forall a b lo ro, Qltb a b = true -> wf_iv (N:=QS) (mkIv (qn a) (qn b) lo ro).
Proof. intros a b lo ro H. split; [cbn; now apply Q2R_lt|]. split; discriminate. Qed.
Lemma ux_wf : wf_leaf elaw ux.
Proof.
  apply real_wf; [now apply iv_wf|discriminate|exact unif_dist|]. apply unif_supp. intros r H. apply in_iv_num. cbn. unfold Q2R; cbn. lra.
Qed.
Lemma disc_01 : forall d a b lo ro, Qltb a b = true -> (exists z, Q2R a = IZR z /\ (0 <= z)%Z) -> (exists z, Q2R b = IZR z) -> disc_supp (D:=DQ) elaw d (mkIv (qn a) (qn b) lo ro).
Proof.
  intros d a b lo ro H (z & Ez & Hz) Hb. split; [cbn; eauto|]. split; [cbn; eauto|]. left. cbn. rewrite Ez. unfold ele. cbn. apply IZR_le in Hz. destruct Hz; [left; lra|right; f_equal; lra].
Qed.
Lemma Q2R_int : forall z, Q2R (z # 1) = IZR z.
Proof. intros z. unfold Q2R. cbn. field. Qed.
Lemma dx_wf : wf_leaf elaw dx.
Proof.
  apply real_wf; [now apply iv_wf| |apply fin_dist, dl_ok|].
  - intros _. apply disc_01; [reflexivity|exists 0%Z; split; [apply Q2R_int|lia]|exists 3%Z; apply Q2R_int].
  - cbn [elaw dl map sumR fold_right fst snd]. rewrite !ind_true; [unfold Q2R; cbn; lra| | |]; apply in_iv_num; cbn; unfold Q2R; cbn; lra.
Qed.
Lemma y_wf : forall a b, (0 <= a)%Q -> (0 <= b)%Q -> (a + b == 1)%Q -> wf_leaf (D:=DQ) elaw (NominalLeaf "Y" [("a", a); ("b", b)]).
Proof.
  intros a b Ha Hb E. split; [repeat constructor; cbn; intuition discriminate|]. split; [repeat constructor; auto|]. cbn. rewrite Qplus_0_r. exact E.
Qed.
Lemma prod_wf : forall x y, wf_spe elaw x -> wf_spe (D:=DQ) elaw y -> apart x y -> wf_spe elaw (ProductSPE [x; y]).
Proof. intros x y Wx Wy A. split; [discriminate|]. split; [cbn; auto|]. repeat constructor; auto. Qed.
Lemma leaf_apart : forall (s : spQ) ws, (forall z, vars s z -> z = "X" \/ z = "Z") -> apart s (NominalLeaf "Y" ws).
Proof. intros s ws H z Hz <-. destruct (H "Y" Hz); discriminate. Qed.
Lemma env_vars : forall z, In z (map fst exenv) -> z = "X" \/ z = "Z".
Proof. intros z [<-|[<-|[]]]; auto. Qed.
Lemma p1_wf : wf_spe elaw p1.
Proof. apply prod_wf; [exact ux_wf|apply y_wf; easy|]. apply leaf_apart, env_vars. Qed.
Lemma p2_wf : wf_spe elaw p2.
Proof. apply prod_wf; [exact dx_wf|apply y_wf; easy|]. apply leaf_apart, env_vars. Qed.
Lemma p3_wf : wf_spe elaw p3.
Proof. apply prod_wf; [exact ax_wf|apply y_wf; easy|]. apply leaf_apart, env_vars. Qed.
Lemma lqP' : forall q, Qle_bool 0 q = true -> @toP LQ q = Q2R q.
Proof. intros q H. apply lq_P_pos. now apply Qle_bool_iff. Qed.
Lemma sx_wf : wf_spe elaw sx.
Proof.
  split; [cbn [All fst]; auto using p1_wf, p2_wf, p3_wf|]. split.
  - cbn [map sumR fold_right snd]. rewrite !lqP' by reflexivity. unfold Q2R; cbn. lra.
  - intros c d [<-|[<-|[<-|[]]]] [<-|[<-|[<-|[]]]] x H; exact H.
Qed.
Definition exnom (x : string) : bool := String.eqb x "Y".
Definition exenvof (x : string) : tenv (N:=QS) := exenv.
Lemma env_num : forall z, In z (map fst exenv) -> exnom z = false.
Proof. intros z [<-|[<-|[]]]; reflexivity. Qed.
Lemma sx_typed : typed (D:=DQ) exnom exenvof sx.
Proof.
  split.
  - repeat constructor; cbn [snd]; rewrite lqP' by reflexivity; unfold Q2R; cbn; lra.
  - repeat split; exact env_num.
Qed.
Lemma within_parts : forall s : spQ, forall a, within s a -> a = s \/ match s with SumSPE l => exists c, In c l /\ within (fst c) a | ProductSPE l => exists c, In c l /\ within c a | _ => False end.
Proof.
  intros s a H. induction H as [|l c Hw [E|IH] Hc|l c Hw [E|IH] Hc]; auto; right.
  - rewrite <- E. exists c. split; auto. constructor.
  - destruct s; try contradiction; destruct IH as (d & Hd & IH); exists d; (split; [auto|]); eapply within_sum; eauto.
  - rewrite <- E. exists c. split; auto. constructor.
  - destruct s; try contradiction; destruct IH as (d & Hd & IH); exists d; (split; [auto|]); eapply within_prod; eauto.
Qed.
Fixpoint parts (s : spQ) : list spQ :=
  s :: match s with
       | SumSPE l => flat_map (fun c => parts (fst c)) l
       | ProductSPE l => flat_map parts l
       | _ => []
       end.
Lemma within_in : forall s a : spQ, within s a -> In a (parts s).
Proof.
  induction s using spe_ind'; intros a W; destruct (within_parts _ _ W) as [->|K]; try (now left); try contradiction; right; destruct K as (c & Hc & Wc); apply in_flat_map; exists c; auto.
Qed.
Lemma sx_distinct : distinct exident sx.
Proof.
  intros a b Ha Hb E. apply within_in in Ha, Hb. cbn [parts sx p1 p2 p3 flat_map fst ux dx ax y1 y2 app] in Ha, Hb.
  repeat (destruct Ha as [<-|Ha]; [repeat (destruct Hb as [<-|Hb]; [try reflexivity; discriminate E|]); contradiction|]); contradiction.
Qed.

(** ** The events *)
Lemma surely_all : forall (s : spQ) (P : asg -> Prop), wf_spe elaw s -> (forall w, P w) -> surely elaw s P.
Proof.
  intros s P W H w. replace (ind (fun w => ~ P w)) with (fun _ : asg => 0); [apply (law_const (den_kernel elaw s W w))|]. extensionality a. symmetry. apply ind_false. intros K. apply K, H.
Qed.
Lemma gev_zlt : forall q, gev (EBasic KInt (TId "Z") (iv NInf (qn q) true true)).
Proof. intros q. apply (good_int (TId "Z") NInf (qn q) true true); [exact Logic.I|exact Logic.I|reflexivity]. Qed.
Lemma gev_xge : gev xge.
Proof. apply (good_int X (qn 2) PInf false true); [exact Logic.I|exact Logic.I|reflexivity]. Qed.
Lemma gev_yina : gev yina.
Proof. apply gev_nom; exact Logic.I || reflexivity. Qed.
Lemma gev_exev : gev exev.
Proof.
  apply (EventOr_ok [zlt; EAnd [xge; yina]]); [|reflexivity]. constructor; [apply gev_zlt|]. constructor; [|constructor].
  apply (EventAnd_ok [xge; yina]); [|reflexivity]. auto using gev_xge, gev_yina.
Qed.
Lemma gev_exev2 : gev exev2.
Proof.
  apply (EventOr_ok [EAnd [zlt3; yina]; xge]); [|reflexivity]. constructor; [|constructor; [apply gev_xge|constructor]].
  apply (EventAnd_ok [zlt3; yina]); [|reflexivity]. constructor; [apply gev_zlt|auto using gev_yina].
Qed.
Lemma sort_num : forall k (t : tr QS) v, k <> KNom -> (forall x, In x (symbols t) -> exnom x = false) -> sort_ok exnom (EBasic k t v).
Proof. intros k t v Hk H. left. split; auto. destruct k; cbn; auto; congruence. Qed.
Lemma sort_yina : sort_ok exnom yina.
Proof. right. do 3 eexists. split; [reflexivity|]. split; [reflexivity|]. now right. Qed.
Lemma sorts_exev : event_sorts exnom exev.
Proof. apply Forall_forall. intros l [<-|[<-|[<-|[]]]]; try exact sort_yina; (apply sort_num; [discriminate|intros x [<-|[]]; reflexivity]). Qed.
Lemma sorts_exev2 : event_sorts exnom exev2.
Proof. apply Forall_forall. intros l [<-|[<-|[<-|[]]]]; try exact sort_yina; (apply sort_num; [discriminate|intros x [<-|[]]; reflexivity]). Qed.
Lemma plain_exev : plain exev /\ plain exev2.
Proof. cbn. intuition discriminate. Qed.
Lemma sx_vars : forall x, vars sx x <-> x = "X" \/ x = "Z" \/ x = "Y".
Proof. intros x. cbn. intuition congruence. Qed.
Lemma cond_exev : conditionable elaw exnom sx exev.
Proof.
  split; [exact gev_exev|]. split; [apply surely_all; [exact sx_wf|]; intros w; apply plain_regular, plain_exev|]. split; [exact sorts_exev|].
  intros x Hx. apply sx_vars. cbn in Hx. intuition congruence.
Qed.
Lemma cond_exev2 : conditionable elaw exnom sx exev2.
Proof.
  split; [exact gev_exev2|]. split; [apply surely_all; [exact sx_wf|]; intros w; apply plain_regular, plain_exev|]. split; [exact sorts_exev2|].
  intros x Hx. apply sx_vars. cbn in Hx. intuition congruence.
Qed.
Lemma sx_atoms : atoms_ok exnom sx.
Proof. exact (typed_atoms exnom exenvof sx sx_typed). Qed.

(** ** C21: the uniform leaf with Z = 2*X + 1, and the atom *)
Example C21_case : wf_leaf elaw ux /\ gev zlt /\ surely elaw ux (regular true zlt) /\ (atomic ux -> num_event zlt) /\ leaf_logprob ioQ po 9 ux zlt = Ok (1#2)%Q /\
  wf_leaf elaw ax /\ num_event zlt /\ leaf_logprob ioQ po 9 ax zlt = Ok 0%Q.
Proof.
  split; [exact ux_wf|]. split; [apply gev_zlt|]. split; [apply surely_all; [exact ux_wf|intros w; apply plain_regular; cbn; intuition discriminate]|]. split; [repeat constructor|]. split; [reflexivity|]. split; [exact ax_wf|]. split; [repeat constructor|reflexivity].
Qed.
(** ** C22 *)
Example C22_case : wf_spe elaw sx /\ atoms_ok exnom sx /\ distinct exident sx /\ askable elaw exnom sx exev /\ fresh (logprob ioQ po 9 exident sx exev) = Ok (1#2)%Q.
Proof. split; [exact sx_wf|]. split; [exact sx_atoms|]. split; [exact sx_distinct|]. split; [apply conditionable_askable, cond_exev|reflexivity]. Qed.
Corollary ex_prob : prob elaw sx exev = / 2.
Proof.
  destruct C22_case as (W & A & Ds & Ae & H). rewrite <- (C22_logprob ioQ po 9 elaw exident exnom sx exev _ W A Ds Ae H). change (@toP LQ (1#2)%Q) with (lq_P (1#2)). rewrite lq_P_pos by discriminate. unfold Q2R; cbn. lra.
Qed.
(** ** C23: (Z < 2) and (X >= 2) are disjoint; [exev] and [exev2] are not; [exev] and its negation *)
Lemma cond_of : forall e : tr QS, gev e -> plain e -> event_kinds exnom e -> askable elaw exnom sx e.
Proof. intros e G P K. split; auto. split; auto. apply surely_all; [exact sx_wf|]. intros w. now apply plain_regular. Qed.
Lemma sx_sorted : surely elaw sx (fun w => is_num (w "X") /\ is_num (w "Z") /\ exists z, w "Y" = FStr z).
Proof.
  intros w. apply (law_null_sub (den_kernel elaw sx sx_wf w) (bad exnom (vars sx))); [apply (typed_sorted elaw exnom exenvof sx sx_wf sx_typed)|].
  intros a H. destruct (dec (bad exnom (vars sx) a)) as [|K]; auto. destruct H.
  assert (V : forall x, vars sx x -> sort1 exnom x (a x)) by (intros x Hx; destruct (dec (sort1 exnom x (a x))); auto; destruct K; exists x; auto).
  pose proof (V "X" (proj2 (sx_vars "X") (or_introl eq_refl))) as VX. pose proof (V "Z" (proj2 (sx_vars "Z") (or_intror (or_introl eq_refl)))) as VZ. pose proof (V "Y" (proj2 (sx_vars "Y") (or_intror (or_intror eq_refl)))) as VY.
  unfold sort1, exnom in *. cbn in *. split; [|split]; [destruct (a "X")|destruct (a "Z")|destruct (a "Y")]; try discriminate; eexists; reflexivity.
Qed.
Lemma kor_def : forall l, (forall o, In o l -> o = one \/ o = zero) -> kor l <> None /\ (kor l = one \/ kor l = zero).
Proof.
  intros l H. unfold kor. destruct (dec (In one l)) as [|K]; [split; auto; discriminate|]. destruct (dec (forall o, In o l -> o = zero)) as [|K2]; [split; auto; discriminate|]. destruct K2. intros o Ho. destruct (H o Ho) as [->|]; tauto.
Qed.
Lemma kand_def : forall l, (forall o, In o l -> o = one \/ o = zero) -> kand l = one \/ kand l = zero.
Proof.
  intros l H. unfold kand. destruct (dec (In zero l)) as [|K]; auto. destruct (dec (forall o, In o l -> o = one)) as [|K2]; auto. destruct K2. intros o Ho. destruct (H o Ho) as [K3|K3]; [auto|rewrite K3 in Ho; tauto].
Qed.
Lemma truth_def : forall P, truth P = one \/ truth P = zero.
Proof. intros P. unfold truth. destruct (dec P); auto. Qed.
Lemma exev_defined : surely elaw sx (fun w => teval exev w <> None).
Proof.
  intros w. apply (law_null_sub (den_kernel elaw sx sx_wf w) (fun w => ~ (is_num (w "X") /\ is_num (w "Z") /\ exists z, w "Y" = FStr z))); [apply sx_sorted|].
  intros a H K. apply H. destruct K as ((x & Ex) & (z & Ez) & (y & Ey)). cbn [teval exev zlt xge yina X map]. rewrite Ex, Ez, Ey. apply kor_def. intros o [<-|[<-|[]]]; [apply truth_def|]. apply kand_def. intros o [<-|[<-|[]]]; apply truth_def.
Qed.
Definition nexev : tr QS := EAnd [EBasic KInt (TId "Z") (iv (qn 2) PInf false true); EOr [EBasic KInt X (iv NInf (qn 2) true true); EBasic KNom (TId "Y") (PB (BNom ["a"] (Some true)))]].
Example C23_complement_case : askable elaw exnom sx exev /\ askable elaw exnom sx nexev /\ ev_not ioQ exev = Ok nexev /\ surely elaw sx (fun w => teval exev w <> None) /\
  fresh (logprob ioQ po 9 exident sx exev) = Ok (1#2)%Q /\ fresh (logprob ioQ po 9 exident sx nexev) = Ok (1#2)%Q.
Proof.
  assert (E : ev_not ioQ exev = Ok nexev) by reflexivity. split; [apply conditionable_askable, cond_exev|]. split.
  - apply cond_of; [apply (ev_not_ok ioQ exev nexev gev_exev E)|cbn; intuition discriminate|]. apply Forall_forall. intros l [<-|[<-|[<-|[]]]]; [left; exact Logic.I|left; exact Logic.I|]. right. intros x [<-|[]]. reflexivity.
  - split; [exact E|]. split; [exact exev_defined|]. split; reflexivity.
Qed.
Definition bothev : tr QS := EAnd [exev; exev2].
Definition eitherev : tr QS := EOr [zlt; EAnd [xge; yina]; EAnd [zlt3; yina]; xge].
Lemma kinds_of : forall e : tr QS, event_sorts exnom e -> event_kinds exnom e.
Proof. exact (sorts_kinds exnom). Qed.
Definition xlt : tr QS := EBasic KInt X (iv NInf (qn 1) true true).
Lemma gev_xlt : gev xlt.
Proof. apply (good_int X NInf (qn 1) true true); [exact Logic.I|exact Logic.I|reflexivity]. Qed.
Example C23_disjoint_case : askable elaw exnom sx xlt /\ askable elaw exnom sx xge /\ askable elaw exnom sx (EOr [xlt; xge]) /\ ev_or ioQ xlt xge = Ok (EOr [xlt; xge]) /\
  surely elaw sx (fun w => ~ (holds xlt w /\ holds xge w)) /\
  fresh (logprob ioQ po 9 exident sx xlt) = Ok (5#8)%Q /\ fresh (logprob ioQ po 9 exident sx xge) = Ok (3#8)%Q.
Proof.
  assert (E1 : ev_or ioQ xlt xge = Ok (EOr [xlt; xge])) by reflexivity.
  split; [apply cond_of; [exact gev_xlt|cbn; intuition discriminate|repeat constructor]|]. split; [apply cond_of; [exact gev_xge|cbn; intuition discriminate|repeat constructor]|].
  split; [apply cond_of; [apply (ev_or_ok ioQ _ _ _ gev_xlt gev_xge E1)|cbn; intuition discriminate|repeat constructor]|]. split; [exact E1|]. split; [|split; reflexivity].
  apply surely_all; [exact sx_wf|]. intros w (H1 & H2). apply holds_basic in H1, H2. destruct H1 as (a & Ea & _ & Fa), H2 as (b & Eb & _ & Fb). cbn in Ea, Eb. rewrite Ea in Eb. injection Eb as <-. destruct a as [r|]; [|exact Fa].
  apply (proj1 (in_iv_num (mkIv (N:=QS) NInf (qn 1) true true) r)) in Fa. apply (in_iv_num (mkIv (N:=QS) (qn 2) PInf false true)) in Fb. cbn in Fa, Fb. unfold Q2R in *. cbn in *. lra.
Qed.
Example C23_union_case : askable elaw exnom sx exev /\ askable elaw exnom sx exev2 /\ askable elaw exnom sx eitherev /\ askable elaw exnom sx bothev /\
  ev_or ioQ exev exev2 = Ok eitherev /\ ev_and ioQ exev exev2 = Ok bothev /\
  fresh (logprob ioQ po 9 exident sx exev) = Ok (1#2)%Q /\ fresh (logprob ioQ po 9 exident sx exev2) = Ok (9#16)%Q /\
  fresh (logprob ioQ po 9 exident sx eitherev) = Ok (13#16)%Q /\ fresh (logprob ioQ po 9 exident sx bothev) = Ok (1#4)%Q.
Proof.
  assert (E1 : ev_or ioQ exev exev2 = Ok eitherev) by reflexivity. assert (E2 : ev_and ioQ exev exev2 = Ok bothev) by reflexivity.
  split; [apply conditionable_askable, cond_exev|]. split; [apply conditionable_askable, cond_exev2|]. split; [|split].
  - apply cond_of; [apply (ev_or_ok ioQ _ _ _ gev_exev gev_exev2 E1)|cbn; intuition discriminate|]. apply kinds_of. apply Forall_forall. intros l Hl. cbn in Hl. pose proof sorts_exev as S1. pose proof sorts_exev2 as S2. unfold event_sorts in *. rewrite Forall_forall in S1, S2. cbn in S1, S2. intuition.
  - apply cond_of; [apply (ev_and_ok ioQ _ _ _ gev_exev gev_exev2 E2)|cbn; intuition discriminate|]. apply kinds_of. apply Forall_forall. intros l Hl. cbn in Hl. pose proof sorts_exev as S1. pose proof sorts_exev2 as S2. unfold event_sorts in *. rewrite Forall_forall in S1, S2. cbn in S1, S2. intuition.
  - repeat split; reflexivity.
Qed.

(** ** C24 *)
Definition excond : spQ -> tr QS -> M spQ := condition ioQ so_id po 9 exident exhash.
Lemma tx_distinct : distinct exident tx.
Proof.
  intros a b Ha Hb E. apply within_in in Ha, Hb. cbn [parts tx t1 t2 t3 p3 flat_map fst ux1 dx1 dx2 ax y1 y2 app] in Ha, Hb.
  repeat (destruct Ha as [<-|Ha]; [repeat (destruct Hb as [<-|Hb]; [try reflexivity; discriminate E|]); contradiction|]); contradiction.
Qed.
Example C24_given_case : wf_spe elaw sx /\ typed exnom exenvof sx /\ distinct exident sx /\ conditionable elaw exnom sx exev2 /\ fresh (excond sx exev2) = Ok tx.
Proof. split; [exact sx_wf|]. split; [exact sx_typed|]. split; [exact sx_distinct|]. split; [exact cond_exev2|]. reflexivity. Qed.
Lemma uni_lit : forall k x v, exists y, only y (EBasic (N:=QS) k (TId x) v).
Proof. intros k x v. exists x. intros y [<-|[]]. reflexivity. Qed.
Lemma uni_exev : univariate exev.
Proof. repeat constructor; apply uni_lit. Qed.
Lemma bothev_askable : askable elaw exnom sx bothev.
Proof. apply C23_union_case. Qed.
Example C24_bayes_case : distinct exident tx /\ askable elaw exnom sx exev /\ univariate exev /\ ev_and ioQ exev exev2 = Ok bothev /\ askable elaw exnom sx bothev /\
  fresh (excond sx exev2) = Ok tx /\ fresh (logprob ioQ po 9 exident tx exev) = Ok (4#9)%Q /\ fresh (logprob ioQ po 9 exident sx exev2) = Ok (9#16)%Q /\ fresh (logprob ioQ po 9 exident sx bothev) = Ok (1#4)%Q.
Proof.
  split; [exact tx_distinct|]. split; [apply conditionable_askable, cond_exev|]. split; [exact uni_exev|]. split; [reflexivity|]. split; [exact bothev_askable|]. repeat split; reflexivity.
Qed.
Definition twoev : tr QS := EAnd [exev2; xge].
Lemma cond_xge : conditionable elaw exnom sx xge.
Proof.
  split; [exact gev_xge|]. split; [apply surely_all; [exact sx_wf|]; intros w; apply plain_regular; cbn; intuition discriminate|]. split; [apply Forall_forall; intros l [<-|[]]; apply sort_num; [discriminate|intros x [<-|[]]; reflexivity]|].
  intros x Hx. apply sx_vars. cbn in Hx. intuition congruence.
Qed.
Lemma cond_twoev : conditionable elaw exnom sx twoev.
Proof.
  assert (E : ev_and ioQ exev2 xge = Ok twoev) by reflexivity.
  split; [apply (ev_and_ok ioQ _ _ _ gev_exev2 gev_xge E)|]. split; [apply surely_all; [exact sx_wf|]; intros w; apply plain_regular; cbn; intuition discriminate|].
  split; [|intros x Hx; apply sx_vars; cbn in Hx; intuition congruence].
  apply Forall_forall. intros l Hl. pose proof sorts_exev2 as S2. unfold event_sorts in S2. rewrite Forall_forall in S2. cbn in S2, Hl. intuition.
Qed.
Definition okb {A} (r : res A) : bool := match r with Ok _ => true | _ => false end.
Lemma okb_ok : forall A (r : res A), okb r = true -> exists a, r = Ok a.
Proof. intros A [a|x] H; [eauto|discriminate]. Qed.
Example C24_twice_case : conditionable elaw exnom sx exev2 /\ conditionable elaw exnom sx xge /\ conditionable elaw exnom sx twoev /\ univariate xge /\ ev_and ioQ exev2 xge = Ok twoev /\
  fresh (excond sx exev2) = Ok tx /\ (exists u, fresh (excond tx xge) = Ok u) /\ (exists v, fresh (excond sx twoev) = Ok v).
Proof.
  split; [exact cond_exev2|]. split; [exact cond_xge|]. split; [exact cond_twoev|]. split; [repeat constructor; apply uni_lit|]. split; [reflexivity|]. split; [reflexivity|]. split; apply okb_ok; vm_compute; reflexivity.
Qed.
Definition xany : tr QS := EBasic KInt X (iv NInf PInf true true).
Lemma gev_xany : gev xany.
Proof. apply (good_int X NInf PInf true true); [exact Logic.I|exact Logic.I|reflexivity]. Qed.
Example C24_certain_case : conditionable elaw exnom sx xany /\ surely elaw sx (holds xany) /\ exists t, fresh (excond sx xany) = Ok t.
Proof.
  split; [|split; [|apply okb_ok; vm_compute; reflexivity]].
  - split; [exact gev_xany|]. split; [apply surely_all; [exact sx_wf|]; intros w; apply plain_regular; cbn; intuition discriminate|]. split; [apply Forall_forall; intros l [<-|[]]; apply sort_num; [discriminate|intros x [<-|[]]; reflexivity]|].
    intros x Hx. apply sx_vars. cbn in Hx. intuition congruence.
  - intros w. apply (law_null_sub (den_kernel elaw sx sx_wf w) (fun w => ~ (is_num (w "X") /\ is_num (w "Z") /\ exists z, w "Y" = FStr z))); [apply sx_sorted|].
    intros a H K. apply H. destruct K as ((x & Ex) & _). unfold holds. cbn [teval xany X]. rewrite Ex. unfold truth. destruct (dec _) as [|F]; auto. destruct F. apply (proj2 (in_iv_num (mkIv (N:=QS) NInf PInf true true) x)). cbn. auto.
Qed.

(** ** C25 *)
Definition xbig : tr QS := EBasic KInt X (iv (qn 9) PInf false true).
Lemma gev_xbig : gev xbig.
Proof. apply (good_int X (qn 9) PInf false true); [exact Logic.I|exact Logic.I|reflexivity]. Qed.
Lemma cond_xbig : conditionable elaw exnom sx xbig.
Proof.
  split; [exact gev_xbig|]. split; [apply surely_all; [exact sx_wf|]; intros w; apply plain_regular; cbn; intuition discriminate|]. split; [apply Forall_forall; intros l [<-|[]]; apply sort_num; [discriminate|intros x [<-|[]]; reflexivity]|].
  intros x Hx. apply sx_vars. cbn in Hx. intuition congruence.
Qed.
Example C25_null_case : wf_spe elaw sx /\ typed exnom exenvof sx /\ distinct exident sx /\ conditionable elaw exnom sx xbig /\ prob elaw sx xbig = 0.
Proof.
  split; [exact sx_wf|]. split; [exact sx_typed|]. split; [exact sx_distinct|]. split; [exact cond_xbig|].
  assert (E : fresh (logprob ioQ po 9 exident sx xbig) = Ok 0%Q) by reflexivity.
  rewrite <- (C22_logprob ioQ po 9 elaw exident exnom sx xbig _ sx_wf sx_atoms sx_distinct (conditionable_askable _ _ _ _ cond_xbig) E). exact (lninf_ok LQ).
Qed.
(** A discrete leaf cannot be conditioned on an interval whose end is not an integer, and a
    continuous leaf cannot be conditioned on an interval together with a point
    (src/spe.py:782, 893-894): an AssertionError, though the events have positive probability. *)
Definition xhalf : tr QS := EBasic KInt X (iv NInf (qn (1#2)) true true).
Lemma gev_xhalf : gev xhalf.
Proof. apply (good_int X NInf (qn (1#2)) true true); [exact Logic.I|exact Logic.I|reflexivity]. Qed.
Definition xmix : tr QS := EOr [xhalf; EBasic KReal X (fr [qn (3#4)])].
Lemma gev_xmix : gev xmix.
Proof.
  apply (EventOr_ok [xhalf; EBasic KReal X (fr [qn (3#4)])]); [|reflexivity]. constructor; [exact gev_xhalf|]. constructor; [|constructor].
  split; [|reflexivity]. refine (conj Logic.I (conj Logic.I (conj _ _))); [|right; eexists; reflexivity]. cbn. split; [repeat constructor; intros []|discriminate].
Qed.
Lemma leaf_distinct : forall s : spQ, is_leaf s = true -> distinct exident s.
Proof. intros s L a b Ha Hb _. destruct (within_parts s a Ha) as [->|Ka], (within_parts s b Hb) as [->|Kb]; auto; destruct s; try contradiction; discriminate. Qed.
Lemma cond_x : forall (s : spQ) e, wf_spe elaw s -> (vars s "X") -> gev e -> plain e -> event_sorts exnom e -> (forall x, In x (symbols e) -> x = "X") -> conditionable elaw exnom s e.
Proof. intros s e W V G P Se Sy. split; auto. split; [apply surely_all; auto; intros w; now apply plain_regular|]. split; auto. intros x Hx. now rewrite (Sy x Hx). Qed.
Lemma leaf_prob : forall (s : spQ) e (p : lg LQ), is_leaf s = true -> wf_leaf elaw s -> atoms_ok exnom s -> conditionable elaw exnom s e -> fresh (logprob ioQ po 9 exident s e) = Ok p -> 0 < @toP LQ p -> 0 < prob elaw s e.
Proof. intros s e p L W A C H P. rewrite <- (C21_leaf_memo ioQ po 9 elaw exident exnom s e p L W A (conditionable_askable _ _ _ _ C) H). exact P. Qed.
Theorem C25_positive_refuted : exists (s : spQ) e, wf_spe elaw s /\ typed exnom exenvof s /\ distinct exident s /\ conditionable elaw exnom s e /\ 0 < prob elaw s e /\ fresh (excond s e) = Raise AssertionError.
Proof.
  exists dx, xhalf. assert (C : conditionable elaw exnom dx xhalf).
  { apply cond_x; [exact dx_wf|now left|exact gev_xhalf|cbn; intuition discriminate| |intros x [<-|[]]; reflexivity]. apply Forall_forall. intros l [<-|[]]. apply sort_num; [discriminate|intros x [<-|[]]; reflexivity]. }
  split; [exact dx_wf|]. split; [split; [exact env_num|exact Logic.I]|]. split; [now apply leaf_distinct|]. split; [exact C|]. split; [|reflexivity].
  apply (leaf_prob dx xhalf (1#2)%Q); [reflexivity|exact dx_wf|exact Logic.I|exact C|reflexivity|]. change (0 < lq_P (1#2)). rewrite lq_P_pos by discriminate. unfold Q2R; cbn. lra.
Qed.
Theorem C25_positive_continuous_refuted : exists (s : spQ) e, wf_spe elaw s /\ typed exnom exenvof s /\ distinct exident s /\ conditionable elaw exnom s e /\ 0 < prob elaw s e /\ fresh (excond s e) = Raise AssertionError.
Proof.
  exists ux, xmix. assert (C : conditionable elaw exnom ux xmix).
  { apply cond_x; [exact ux_wf|now left|exact gev_xmix|cbn; intuition discriminate| |cbn; intuition]. apply Forall_forall. intros l [<-|[<-|[]]]; (apply sort_num; [discriminate|intros x [<-|[]]; reflexivity]). }
  split; [exact ux_wf|]. split; [split; [exact env_num|exact Logic.I]|]. split; [now apply leaf_distinct|]. split; [exact C|]. split; [|reflexivity].
  apply (leaf_prob ux xmix (1#2)%Q); [reflexivity|exact ux_wf|exact Logic.I|exact C|reflexivity|]. change (0 < lq_P (1#2)). rewrite lq_P_pos by discriminate. unfold Q2R; cbn. lra.
Qed.
(** A child of weight zero makes a sum return a conditional distribution for an event of
    probability zero (src/spe.py:256-264 looks at the children's probabilities only). *)
Definition sz : spQ := SumSPE (S:=LQ) [(ax, 0); (ux, 1)]%Q.
Lemma sz_wf : wf_spe elaw sz.
Proof.
  split; [exact (conj ax_wf (conj ux_wf Logic.I))|]. split; [|intros c d [<-|[<-|[]]] [<-|[<-|[]]] x H; exact H].
  cbn [map sumR fold_right snd]. rewrite !lqP' by reflexivity. unfold Q2R; cbn. lra.
Qed.
Lemma sz_distinct : distinct exident sz.
Proof.
  intros a b Ha Hb E. apply within_in in Ha, Hb. cbn [parts sz flat_map fst ux ax app] in Ha, Hb.
  repeat (destruct Ha as [<-|Ha]; [repeat (destruct Hb as [<-|Hb]; [try reflexivity; discriminate E|]); contradiction|]); contradiction.
Qed.
Theorem C25_zero_weight_refuted : exists (s t : spQ) e, wf_spe elaw s /\ distinct exident s /\ conditionable elaw exnom s e /\ prob elaw s e = 0 /\ fresh (excond s e) = Ok t.
Proof.
  exists sz, ax, xge. assert (C : conditionable elaw exnom sz xge).
  { apply cond_x; [exact sz_wf|now left|exact gev_xge|cbn; intuition discriminate| |intros x [<-|[]]; reflexivity]. apply Forall_forall. intros l [<-|[]]. apply sort_num; [discriminate|intros x [<-|[]]; reflexivity]. }
  split; [exact sz_wf|]. split; [exact sz_distinct|]. split; [exact C|]. split; [|reflexivity].
  assert (E : fresh (logprob ioQ po 9 exident sz xge) = Ok 0%Q) by reflexivity. assert (A : atoms_ok exnom sz) by (repeat split; exact env_num).
  rewrite <- (C22_logprob ioQ po 9 elaw exident exnom sz xge _ sz_wf A sz_distinct (conditionable_askable _ _ _ _ C) E). exact (lninf_ok LQ).
Qed.

(** ** C30: the same table for three queries *)
Definition exhist : list query := [QLogprob sx exev; QCondition sx exev2; QLogprob sx xge].
Notation extable := (table ioQ so_id po 9 exident exhash).
Example C30_case : closed exident (within sx) /\ Forall (fine elaw exnom exenvof (within sx)) exhist /\ extable exhist <> Memo /\
  fst (logprob ioQ po 9 exident sx exev2 (extable exhist)) = Ok (9#16)%Q /\ fst (excond sx exev2 (extable exhist)) = Ok tx.
Proof.
  split; [apply within_closed, sx_distinct|]. split; [|split; [|split; reflexivity]].
  - pose proof (within_self sx) as W0. apply Forall_cons; [|apply Forall_cons; [|apply Forall_cons; [|apply Forall_nil]]].
    + exact (conj W0 (conj sx_wf (conj sx_atoms (conditionable_askable _ _ _ _ cond_exev)))).
    + exact (conj W0 (conj sx_wf (conj sx_typed cond_exev2))).
    + exact (conj W0 (conj sx_wf (conj sx_atoms (conditionable_askable _ _ _ _ cond_xge)))).
  - intros H. assert (K : is_nil (m_condition (extable exhist)) = true) by (rewrite H; reflexivity). vm_compute in K. discriminate.
Qed.

Definition all_spe_cases := (@C21_case, @C22_case, @C23_complement_case, @C23_disjoint_case, @C23_union_case, @C24_given_case, @C24_bayes_case, @C24_twice_case,
  @C24_certain_case, @C25_null_case, @C25_positive_refuted, @C25_positive_continuous_refuted, @C25_zero_weight_refuted, @C30_case).
Print Assumptions all_spe_cases.
