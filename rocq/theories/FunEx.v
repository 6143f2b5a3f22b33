(** Cases and refutations for C58. *)
From Coq Require Import List Bool String Reals Lra Lia ZArith QArith Qabs Qreals.
From Verif Require Import Base Num Sets SetSpec SetIv SetProofs SetOr SetOps SetAlg SetBuilt
  Poly Trans TransSpec TransFacts PolyProofs InvProofs InvMain EvProofs ArithProofs PolyEx
  Dnf DnfSpec DnfProofs DnfUnion Logs Spe SpeSpec SpeFacts SpeRect LeafProofs LeafEvents LeafCond SpeCons LeafGiven MemoProofs PropTrans NormSorts LogprobProofs LogprobTop SpeEq SimplifyProofs CondTypes CondProofs CondTop PropSpe Uniform Instances SpeEx
  SpeOps OpsProofs BuildProofs TransformProofs PropCons ConsEx Same ProgEx DensSpec DensProofs ConstrainProofs DensLimit DensPoint PropDens DensEx TotalSpec PropTotal TotalEx SolveSpec InvTotal AskSpec PropAsk LinEx AskEx TotalProofs FunSpec FunTotal PropFun.
Import ListNotations.
Local Open Scope R_scope.
Local Open Scope string_scope.

(** (|X - 1/2| < 1/4 and Y << {'a'}) or |X - 1/2| >= 3 or X << {1}, asked of sx of SpeEx.v, whose
    leaves have closed supports *)
Definition tlt : tr QS := EBasic KInt TX (iv NInf (Fin (1#4)%Q) true true).
Definition tge : tr QS := EBasic KInt TX (iv (qn 3) PInf false true).
Definition xis1 : tr QS := EBasic KReal (TId "X") (PB (BReal [qn 1])).
Definition fev : tr QS := EOr [EAnd [tlt; yina]; tge; xis1].
Lemma TX_chain : forall k, k <> Ext -> chain pl (N:=QS) k TX.
Proof. intros k Hk. cbn [chain TX WX]. split; [exact Hk|]. split; [apply lin_q; unfold Q2R; cbn; lra|exact Logic.I]. Qed.
Lemma TX_good : good (N:=QS) TX /\ realv (N:=QS) TX. Proof. repeat split. Qed.
Lemma TX_curve : forall i : interval QS, wf_iv i -> curve pl exnom any (EBasic KInt TX (PB (BInt i))).
Proof.
  intros i W. exists KInt, TX, (PB (BInt i)), "X". split; [reflexivity|]. split; [cbn [chained]; split; [exact W|apply TX_chain; discriminate]|]. split; [cbn; discriminate|]. split; [reflexivity|]. split; [reflexivity|]. intros r. exact Logic.I.
Qed.
Lemma gev_tlt : gev tlt. Proof. apply (good_int TX NInf (Fin (1#4)%Q) true true); try reflexivity; apply TX_good. Qed.
Lemma gev_tge : gev tge. Proof. apply (good_int TX (qn 3) PInf false true); try reflexivity; apply TX_good. Qed.
Lemma gev_xis1 : gev xis1.
Proof. apply (t_in_basic_ok (TId "X") (PB (BReal [qn 1])) xis1 Logic.I Logic.I); [|reflexivity]. split; [|discriminate]. constructor; [intros []|constructor]. Qed.
Lemma fev_posed : posed pl exnom any any fev.
Proof.
  assert (Cx : comparison exnom any any xis1).
  { exists KReal, "X", (PB (BReal [qn 1])). split; [reflexivity|]. split; [discriminate|]. split; [exact Logic.I|]. split; [reflexivity|]. split; [intros j _ r _; exact Logic.I|]. intros vs y r _ _ _. left. exact Logic.I. }
  split; [|split].
  - apply (EventOr_ok [EAnd [tlt; yina]; tge; xis1]); [|reflexivity]. repeat (apply Forall_cons || apply Forall_nil); [|exact gev_tge|exact gev_xis1]. apply (EventAnd_ok [tlt; yina]); [|reflexivity]. repeat (apply Forall_cons || apply Forall_nil); [exact gev_tlt|exact gev_yina].
  - cbn [lits fev map List.concat app]. repeat (apply Forall_cons || apply Forall_nil); [right; apply TX_curve; repeat split; cbn; auto; discriminate|left; exact cmp_ya|right; apply TX_curve; repeat split; cbn; auto; discriminate|left; exact Cx].
  - intros a x Ha Hx. assert (K : comparison exnom any any a \/ x = "X").
    { cbn [lits fev map List.concat app In] in Ha. destruct Ha as [<-|[<-|[<-|[<-|[]]]]]; [right|left; exact cmp_ya|right|left; exact Cx]; cbn in Hx; intuition. }
    destruct K as [K| ->]; [now left|]. right. left. cbn [single fev All]. repeat split; auto. repeat constructor. cbn. intros (_ & [H|[]]). discriminate.
Qed.
Lemma sx_fun_prepared : prepared pl exnom any any (fun x => In x (symbols fev)) true sx.
Proof.
  set (A := fun x => In x (symbols fev)). assert (H : forall z, A z -> In z (map fst exenv) -> z = "X") by (unfold A; cbn; intuition; subst; try discriminate; auto).
  assert (L : lone A exenv) by (intros y z Ay Az Iy Iz; rewrite (H y Ay Iy), (H z Az Iz); reflexivity).
  assert (R : forall z, A z -> In z (map fst exenv) -> exnom z = false /\ z = "X") by (intros z Az Iz; rewrite (H z Az Iz); auto).
  cbn [prepared sx p1 p2 p3 ux dx ax y1 y2 All fst]. repeat split; try exact L; try reflexivity; try (now apply R); try (left; split; [now apply R|discriminate]); try (left; now apply R).
  intros y [<-|[<-|[]]]; reflexivity.
Qed.
Lemma fev_surely : surely elaw sx (regular true fev).
Proof.
  intros w. rewrite (law_ext (I:=fun g => SpeSpec.den elaw sx g w) _ (fun _ => 0)); [apply (law_const (den_kernel elaw sx sx_wf w))|]. intros a. apply ind_false. intros K. apply K. cbn. repeat split; intros; try discriminate. now left.
Qed.
Definition gives (m : res (lg LQ)) (q : Q) : bool := match m with Ok p => Qeq_bool p q | Raise _ => false end.
Lemma gives_ok : forall m q, gives m q = true -> exists p : Q, m = Ok (p : lg LQ) /\ (p == q)%Q.
Proof. intros [p|] q H; [|discriminate]. exists p. split; auto. now apply Qeq_bool_eq. Qed.
Definition asserts (m : res (lg LQ)) : bool := match m with Raise AssertionError => true | _ => false end.
Lemma asserts_ok : forall m, asserts m = true -> m = Raise AssertionError.
Proof. intros [p|[]] H; try discriminate. reflexivity. Qed.
Lemma fev_value : gives (fresh (logprob ioQ pl 9 (ids_of sx) sx fev)) (5#16)%Q = true.
Proof. vm_compute. reflexivity. Qed.
Example C58_answers_case : wf_spe elaw sx /\ distinct (ids_of sx) sx /\ is_leaf sx = false /\ prepared pl exnom any any (fun x => In x (symbols fev)) true sx /\ posed pl exnom any any fev /\ (forall x, In x (symbols fev) -> vars sx x) /\ surely elaw sx (regular true fev) /\
  exists q, fresh (logprob ioQ pl 9 (ids_of sx) sx fev) = Ok q /\ (q == 5#16)%Q.
Proof.
  split; [exact sx_wf|]. split; [apply ids_distinct|]. split; [reflexivity|]. split; [exact sx_fun_prepared|]. split; [exact fev_posed|]. split; [cbn; intuition|]. split; [exact fev_surely|]. apply gives_ok. exact fev_value.
Qed.
(** |X - 1/2| > 3/8 or |X - 1/2| <= 1/8, asked of the leaf ut of AskEx.v with the support (0,2) *)
Definition tle8 : tr QS := EBasic KInt TX (iv NInf (Fin (1#8)%Q) true false).
Definition tgt8 : tr QS := EBasic KInt TX (iv (Fin (3#8)%Q) PInf true true).
Definition tev : tr QS := EOr [tle8; tgt8].
Lemma tev_value : gives (fresh (logprob ioQ pl 9 (ids_of ut) ut tev)) (1#2)%Q = true.
Proof. vm_compute. reflexivity. Qed.
Example C58_leaf_case : wf_spe elaw ut /\ distinct (ids_of ut) ut /\ atoms_ok exnom ut /\ iv_lo i02 = true /\ iv_ro i02 = true /\ solvable pl tev /\ gev tev /\ symbols (tev : tr QS) = [var_of ut] /\
  surely elaw ut (regular true tev) /\ exists q, fresh (logprob ioQ pl 9 (ids_of ut) ut tev) = Ok q /\ (q == 1#2)%Q.
Proof.
  split; [exact ut_wf|]. split; [apply ids_distinct|]. split; [exact Logic.I|]. split; [reflexivity|]. split; [reflexivity|].
  assert (C : forall i : interval QS, wf_iv i -> chained pl (EBasic KInt TX (PB (BInt i)))) by (intros i W; split; [exact W|apply TX_chain; discriminate]).
  split; [cbn [solvable tev]; split; [discriminate|]; split; [repeat (apply Forall_cons || apply Forall_nil); apply C; repeat split; cbn; auto; discriminate|exists "X"; repeat constructor]|].
  split; [apply (EventOr_ok [tle8; tgt8]); [|reflexivity]; repeat (apply Forall_cons || apply Forall_nil); [apply (good_int TX NInf (Fin (1#8)%Q) true false)|apply (good_int TX (Fin (3#8)%Q) PInf true true)]; try reflexivity; apply TX_good|]. split; [reflexivity|]. split.
  - intros w. rewrite (law_ext (I:=fun g => SpeSpec.den elaw ut g w) _ (fun _ => 0)); [apply (law_const (den_kernel elaw ut ut_wf w))|]. intros a. apply ind_false. intros K. apply K. cbn. repeat split; intros; discriminate.
  - apply gives_ok. exact tev_value.
Qed.

(** The support must be open: |X - 1/2| >= 1/2, asked of the leaf utc with the support [0,1], is an
    AssertionError. *)
Definition tge2 : tr QS := EBasic KInt TX (iv (Fin (1#2)%Q) PInf false true).
Lemma gev_tge2 : gev tge2. Proof. apply (good_int TX (Fin (1#2)%Q) PInf false true); try reflexivity; apply TX_good. Qed.
Lemma tge2_raises : asserts (fresh (logprob ioQ pl 9 (ids_of utc) utc tge2)) = true.
Proof. vm_compute. reflexivity. Qed.
Theorem C58_closed_support_refuted : exists (s : spQ) e, wf_spe elaw s /\ distinct (ids_of s) s /\ is_leaf s = true /\ solvable pl e /\ gev e /\ symbols e = [var_of s] /\ fresh (logprob ioQ pl 9 (ids_of s) s e) = Raise AssertionError.
Proof.
  exists utc, tge2. split; [exact utc_wf|]. split; [apply ids_distinct|]. split; [reflexivity|]. split; [split; [repeat split; cbn; auto; discriminate|apply TX_chain; discriminate]|]. split; [exact gev_tge2|]. split; [reflexivity|]. apply asserts_ok. exact tge2_raises.
Qed.
(** A variable compared through a function that is not one-to-one may not occur twice in a
    conjunction: |X - 1/2| >= 1/2
    and 0 <= X <= 1, asked of a product, is an AssertionError. *)
Definition xin01 : tr QS := EBasic KInt (TId "X") (iv (qn 0) (qn 1) false false).
Definition twice : tr QS := EAnd [tge2; xin01].
Lemma twice_raises : asserts (fresh (logprob ioQ pl 9 (ids_of sx) sx twice)) = true.
Proof. vm_compute. reflexivity. Qed.
Theorem C58_twice_refuted : exists (s : spQ) e, wf_spe elaw s /\ distinct (ids_of s) s /\ is_leaf s = false /\ prepared pl exnom any any (fun x => In x (symbols e)) true s /\ gev e /\
  Forall (fun a => comparison exnom any any a \/ curve pl exnom any a) (lits e) /\ (forall x, In x (symbols e) -> vars s x) /\ fresh (logprob ioQ pl 9 (ids_of s) s e) = Raise AssertionError.
Proof.
  exists sx, twice. split; [exact sx_wf|]. split; [apply ids_distinct|]. split; [reflexivity|].
  split.
  { set (A := fun x => In x (symbols twice)). assert (H : forall z, A z -> In z (map fst exenv) -> z = "X") by (unfold A; cbn; intuition; subst; try discriminate; auto).
    assert (L : lone A exenv) by (intros y z Ay Az Iy Iz; rewrite (H y Ay Iy), (H z Az Iz); reflexivity).
    assert (R : forall z, A z -> In z (map fst exenv) -> exnom z = false /\ z = "X") by (intros z Az Iz; rewrite (H z Az Iz); auto).
    cbn [prepared sx p1 p2 p3 ux dx ax y1 y2 All fst]. repeat split; try exact L; try reflexivity; try (now apply R); try (left; split; [now apply R|discriminate]); try (left; now apply R).
    intros y [<-|[<-|[]]]; reflexivity. }
  split; [apply (EventAnd_ok [tge2; xin01]); [|reflexivity]; repeat (apply Forall_cons || apply Forall_nil); [exact gev_tge2|apply (good_int (TId "X") (qn 0) (qn 1) false false); exact Logic.I || reflexivity]|].
  split; [cbn [lits twice map List.concat app]; repeat (apply Forall_cons || apply Forall_nil); [right; apply TX_curve; repeat split; cbn; auto; discriminate|left; now apply cmp_iv]|]. split; [cbn; intuition|]. apply asserts_ok. exact twice_raises.
Qed.


(** after other queries through the same memo table: the hypotheses on the history *)
Example C58_after_case : closed (ids_of sx) (within sx) /\ Forall (PropSpe.fine elaw exnom exenvof (within sx)) [PropSpe.QLogprob sx exev; PropSpe.QCondition sx exev2] /\ within sx sx.
Proof. exact C57_after_case. Qed.

(** X - 1/2 <= 0 and Y << {'a'}, conditions on the product p1 of SpeEx.v, where X is continuous *)
Definition wle : tr QS := EBasic KInt WX (iv NInf (qn 0) true false).
Definition cev : tr QS := EAnd [wle; yina].
Lemma cev_posed : posed pl exnom any any cev.
Proof.
  split; [|split].
  - apply (EventAnd_ok [wle; yina]); [|reflexivity]. repeat (apply Forall_cons || apply Forall_nil); [apply (good_int WX NInf (qn 0) true false); try reflexivity; repeat split|exact gev_yina].
  - cbn [lits cev map List.concat app]. repeat (apply Forall_cons || apply Forall_nil); [right|left; exact cmp_ya]. exists KInt, WX, (iv NInf (qn 0) true false), "X". split; [reflexivity|].
    split; [cbn [chained wle iv WX]; split; [repeat split; cbn; auto; discriminate|]; cbn [chain]; split; [apply lin_q; unfold Q2R; cbn; lra|exact Logic.I]|]. split; [cbn; discriminate|]. split; [reflexivity|]. split; [reflexivity|]. intros r. exact Logic.I.
  - intros a x Ha Hx. cbn [lits cev map List.concat app In] in Ha. destruct Ha as [<-|[<-|[]]]; [right|left; exact cmp_ya]. cbn in Hx. destruct Hx as [<-|[]]. left. cbn [single cev All]. repeat split; auto. repeat constructor. cbn. intros (_ & [H|[]]). discriminate.
Qed.
Lemma cev_surely : surely elaw p1 (regular true cev).
Proof.
  intros w. rewrite (law_ext (I:=fun g => SpeSpec.den elaw p1 g w) _ (fun _ => 0)); [apply (law_const (den_kernel elaw p1 p1_wf w))|]. intros a. apply ind_false. intros K. apply K. cbn. repeat split; intros; try discriminate. now left.
Qed.
Lemma p1_fun_prepared : prepared pl exnom any any (fun x => In x (symbols cev)) true p1.
Proof.
  set (A := fun x => In x (symbols cev)). assert (H : forall z, A z -> In z (map fst exenv) -> z = "X") by (unfold A; cbn; intuition; subst; try discriminate; auto).
  cbn [prepared p1 ux y1 All]. repeat split; try reflexivity; [intros y z Ay Az Iy Iz; rewrite (H y Ay Iy), (H z Az Iz); reflexivity|now rewrite (H z H0 H1)|left; split; [now apply H|discriminate]].
Qed.
Lemma cev_value : gives (fresh (logprob ioQ pl 9 (ids_of p1) p1 cev)) (1#8)%Q = true.
Proof. vm_compute. reflexivity. Qed.
Example C58_condition_case : wf_spe elaw p1 /\ typed exnom exenvof p1 /\ distinct (ids_of p1) p1 /\ is_leaf p1 = false /\ open_leaves exnom any false p1 /\ steady any any p1 /\ posed pl exnom any any cev /\ conjunctive cev /\ Forall thin (lits cev) /\
  (forall x, In x (symbols cev) -> own p1 x) /\ surely elaw p1 (regular true cev) /\ 0 < prob elaw p1 cev.
Proof.
  split; [exact p1_wf|]. split; [apply sx_typed|]. split; [apply ids_distinct|]. split; [reflexivity|]. split; [cbn; repeat split; discriminate|]. split; [cbn; repeat split; discriminate|]. split; [exact cev_posed|]. split; [cbn; auto|].
  split; [repeat constructor|]. split; [cbn; intuition|]. split; [exact cev_surely|].
  destruct (C58_answers_partial ioQ pl 9 elaw (ids_of p1) (fun _ => 0%Z) exnom any any ltac:(lia) p1 cev p1_wf (ids_distinct p1) eq_refl p1_fun_prepared cev_posed ltac:(cbn; intuition)) as (p & Ep & Pp).
  rewrite <- (Pp cev_surely). destruct (gives_ok _ _ cev_value) as (q & Eq & Hq). rewrite Ep in Eq. injection Eq as ->. rewrite (lqP' q) by (apply Qle_bool_iff; rewrite Hq; discriminate). rewrite (Qeq_eqR _ _ Hq). unfold Q2R; cbn; lra.
Qed.

(** X - 1/2 <= 0 and X - 1/2 > -1/4 and 1 + 2*X > 9/8 and X in [0, 3/8) and Y << {'a'}: X occurs four
    times in the conjunction, through one-to-one functions *)
Definition VX : tr QS := TPoly (N:=QS) (TId "X") [1; 2]%Q.
Definition wgt : tr QS := EBasic KInt WX (iv (Fin (-1#4)%Q) PInf true true).
Definition vgt : tr QS := EBasic KInt VX (iv (Fin (9#8)%Q) PInf true true).
Definition xlt : tr QS := EBasic KInt (TId "X") (iv (qn 0) (Fin (3#8)%Q) false true).
Definition mev : tr QS := EAnd [wle; wgt; vgt; xlt; yina].
Lemma wv_curve : forall (i : interval QS), wf_iv i -> curve pl exnom any (EBasic KInt WX (PB (BInt i))) /\ curve pl exnom any (EBasic KInt VX (PB (BInt i))).
Proof.
  intros i W. split; [exists KInt, WX, (PB (BInt i)), "X"|exists KInt, VX, (PB (BInt i)), "X"]; (split; [reflexivity|]; split; [cbn [chained]; split; [exact W|cbn [chain WX VX]; split; [apply lin_q; unfold Q2R; cbn; lra|exact Logic.I]]|]; split; [cbn; discriminate|]; split; [reflexivity|]; split; [reflexivity|]; intros r; exact Logic.I).
Qed.
Lemma mev_posed : posed pl exnom any any mev.
Proof.
  split; [|split].
  - apply (EventAnd_ok [wle; wgt; vgt; xlt; yina]); [|reflexivity]. repeat (apply Forall_cons || apply Forall_nil);
      [apply (good_int WX NInf (qn 0) true false); try reflexivity; repeat split|apply (good_int WX (Fin (-1#4)%Q) PInf true true); try reflexivity; repeat split|apply (good_int VX (Fin (9#8)%Q) PInf true true); try reflexivity; repeat split|apply (good_int (TId "X") (qn 0) (Fin (3#8)%Q) false true); exact Logic.I || reflexivity|exact gev_yina].
  - cbn [lits mev map List.concat app]. repeat (apply Forall_cons || apply Forall_nil); [right; apply wv_curve|right; apply wv_curve|right; apply wv_curve|left; now apply cmp_iv|left; exact cmp_ya]; repeat split; cbn; auto; discriminate.
  - intros a x Ha Hx. cbn [lits mev map List.concat app In] in Ha. assert (K : comparison exnom any any a \/ x = "X") by (destruct Ha as [<-|[<-|[<-|[<-|[<-|[]]]]]]; try (left; exact cmp_ya); right; cbn in Hx; intuition).
    destruct K as [K| ->]; [now left|]. right. right. intros b Hb _. cbn [lits mev map List.concat app In] in Hb. destruct Hb as [<-|[<-|[<-|[<-|[<-|[]]]]]]; exact Logic.I.
Qed.
Lemma mev_surely : surely elaw p1 (regular true mev).
Proof.
  intros w. rewrite (law_ext (I:=fun g => SpeSpec.den elaw p1 g w) _ (fun _ => 0)); [apply (law_const (den_kernel elaw p1 p1_wf w))|]. intros a. apply ind_false. intros K. apply K. cbn. repeat split; intros; try discriminate; now left.
Qed.
Lemma mev_value : gives (fresh (logprob ioQ pl 9 (ids_of p1) p1 mev)) (1#32)%Q = true.
Proof. vm_compute. reflexivity. Qed.
Example C58_many_case : posed pl exnom any any mev /\ conjunctive mev /\ Forall thin (lits mev) /\ (forall x, In x (symbols mev) -> own p1 x) /\ surely elaw p1 (regular true mev) /\ ~ single "X" mev /\
  (exists q, fresh (logprob ioQ pl 9 (ids_of p1) p1 mev) = Ok q /\ (q == 1#32)%Q) /\ exists t, fresh (condition ioQ so_id pl 9 (ids_of p1) (fun _ => 0%Z) p1 mev) = Ok t /\ given elaw p1 (holds mev) t.
Proof.
  split; [exact mev_posed|]. split; [cbn; auto 9|]. split; [repeat constructor|]. split; [cbn; intuition|]. split; [exact mev_surely|]. split; [intros (_ & A); inversion A as [|? ? F _]; subst; inversion F as [|? ? K _]; subst; apply K; cbn; auto|].
  destruct (gives_ok _ _ mev_value) as (q & Eq & Hq). split; [exists q; auto|].
  assert (Ty : typed exnom exenvof p1) by apply sx_typed. assert (Pr : prepared pl exnom any any (fun x => In x (symbols mev)) true p1) by exact p1_fun_prepared.
  assert (Pos : 0 < prob elaw p1 mev).
  { destruct (C58_answers_partial ioQ pl 9 elaw (ids_of p1) (fun _ => 0%Z) exnom any any ltac:(lia) p1 mev p1_wf (ids_distinct p1) eq_refl Pr mev_posed ltac:(cbn; intuition)) as (p & Ep & Pp).
    rewrite <- (Pp mev_surely). rewrite Ep in Eq. injection Eq as ->. rewrite (lqP' q) by (apply Qle_bool_iff; rewrite Hq; discriminate). rewrite (Qeq_eqR _ _ Hq). unfold Q2R; cbn; lra. }
  destruct (C58_condition_partial ioQ so_id pl 9 elaw elaw_eq (ids_of p1) (fun _ => 0%Z) exnom any any exenvof ltac:(lia) p1 mev p1_wf Ty (ids_distinct p1) eq_refl ltac:(cbn; repeat split; discriminate) ltac:(cbn; repeat split; discriminate)
    mev_posed ltac:(cbn; auto 9) ltac:(repeat constructor) ltac:(cbn; intuition) mev_surely Pos) as (t & Et & _ & _ & Gt). exists t. auto.
Qed.

Definition all_fun_properties := (@C58_answers_partial, @C58_after_partial, @C58_leaf, @C58_leaf_answers, @C58_condition_partial, @C58_condition_exactly_partial, @C58_closed_support_refuted, @C58_twice_refuted).
Print Assumptions all_fun_properties.
