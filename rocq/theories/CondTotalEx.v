(** Cases for C54_union and for C25 with comparisons of variables. *)
From Coq Require Import List Bool String Reals Lra Lia ZArith QArith Qabs Qreals.
From Verif Require Import Base Num Sets SetSpec SetIv SetProofs SetOr SetOps SetAlg SetBuilt
  Poly Trans TransSpec TransFacts PolyProofs InvProofs InvMain EvProofs ArithProofs PolyEx
  Dnf DnfSpec DnfProofs DnfUnion Logs Spe SpeSpec SpeFacts SpeRect LeafProofs LeafEvents LeafCond SpeCons LeafGiven MemoProofs PropTrans NormSorts LogprobProofs LogprobTop SpeEq SimplifyProofs CondTypes CondProofs CondTop PropSpe Uniform Instances SpeEx
  SpeOps OpsProofs BuildProofs TransformProofs PropCons ConsEx Same ProgEx DensSpec DensProofs ConstrainProofs DensLimit DensPoint PropDens DensEx TotalSpec TotalSets PropTotal TotalUnion TotalGrid PropCondTotal TotalEx.
Import ListNotations.
Local Open Scope R_scope.
Local Open Scope string_scope.

Definition whole : string -> R -> Prop := fun _ r => exists z, r = IZR z.
Definition none : string -> R -> Prop := fun _ _ => False.
Definition isok {A} (r : res A) : bool := match r with Ok _ => true | Raise _ => false end.
Lemma isok_ex : forall A (r : res A), isok r = true -> exists t, r = Ok t.
Proof. intros A [t|x]; [eauto|discriminate]. Qed.
Lemma whole_end : forall (a : ext (num QS)) (z : Z) r, a = NInf \/ a = PInf \/ a = Fin (inject_Z z) -> eR a = Fin r -> whole "X" r.
Proof. intros a z r [->|[->| ->]] E; try discriminate. injection E as <-. exists z. change (Q2R (inject_Z z) = IZR z). unfold Q2R; cbn. field. Qed.
Lemma cmp_xz : forall points (a b : ext (num QS)) lo ro (y z : Z), a = NInf \/ a = PInf \/ a = Fin (inject_Z y) -> b = NInf \/ b = PInf \/ b = Fin (inject_Z z) -> hasinf (N:=QS) (PB (BInt (mkIv (N:=QS) a b lo ro))) = false ->
  comparison exnom whole points (EBasic KInt X (PB (BInt (mkIv (N:=QS) a b lo ro)))).
Proof.
  intros points a b lo ro y z Ha Hb H. exists KInt, "X", (PB (BInt (mkIv (N:=QS) a b lo ro))). split; [reflexivity|]. split; [discriminate|]. split; [exact Logic.I|]. split; [exact H|].
  split; [|intros vs u r [E|[]]; discriminate]. intros j [E|[]] r Hr. injection E as <-. destruct Hr as [Hr|Hr]; [exact (whole_end a y r Ha Hr)|exact (whole_end b z r Hb Hr)].
Qed.
Lemma cmp_yz : forall points, comparison exnom whole points yina.
Proof. intros points. exists KNom, "Y", (fn ["a"]). split; [reflexivity|]. right. exact Logic.I. Qed.
(** X < 1 or Y << {'a'}: the clauses overlap *)
Definition orv : tr QS := EOr [xlt; yina].
Lemma direct_orv : direct exnom whole none orv.
Proof.
  split; [apply (EventOr_ok [xlt; yina]); [|reflexivity]; auto using gev_xlt, gev_yina|]. apply Forall_cons; [apply (cmp_xz none NInf (qn 1) true true 0 1); auto|]. apply Forall_cons; [apply cmp_yz|constructor].
Qed.
Lemma direct_tevz : direct exnom whole none tev.
Proof. split; [exact gev_tev|]. apply Forall_cons; [apply (cmp_xz none (qn 2) PInf false true 2 0); auto|]. apply Forall_cons; [apply cmp_yz|]. apply Forall_cons; [apply (cmp_xz none NInf (qn 1) true true 0 1); auto|constructor]. Qed.
(** normal form and disjoint clauses: X < 1, or X >= 1 and Y << {'a'} *)
Example C54_union_case : direct exnom whole none orv /\ dnf_normalize ioQ po 9 orv = Ok (Some orv) /\
  disjoint_union ioQ po 9 9 orv = Ok (EOr [xlt; EAnd [yina; EBasic KInt X (iv (qn 1) PInf false true)]]).
Proof. split; [exact direct_orv|]. split; reflexivity. Qed.

Lemma mx_openz : open_leaves exnom whole true mx.
Proof. cbn. intuition discriminate. Qed.
Lemma mx_steady : forall points : string -> R -> Prop, (forall r, points "X" r -> whole "X" r) -> steady whole points mx.
Proof. intros points Hp. cbn. repeat match goal with |- _ /\ _ => split end; try exact Logic.I; intros E r [H|H]; first [discriminate E|exact H|exact (Hp r H)]. Qed.
Lemma mx_pos : forall e p, wf_spe elaw mx -> direct exnom any any e -> (forall x, In x (symbols e) -> own mx x) -> fresh (logprob ioQ po 9 (ids_of mx) mx e) = Ok p -> 0 < toP (l0:=LQ) p -> 0 < prob elaw mx e.
Proof.
  intros e p W De V E P. destruct (C54_answers_partial (S:=LQ) (D:=DQ) ioQ po 9 elaw (ids_of mx) exhash exnom any any ltac:(lia) mx e W (ids_distinct mx) mx_open De V) as (q & Eq & Tq); [discriminate|]. rewrite E in Eq. injection Eq as <-. rewrite <- Tq. exact P.
Qed.
Example C25_positive_case : wf_spe elaw mx /\ typed exnom exenvof mx /\ distinct (ids_of mx) mx /\ open_leaves exnom whole true mx /\ steady whole none mx /\ even (holds tev) mx /\
  direct exnom whole none tev /\ (forall x, In x (symbols tev) -> own mx x) /\ leaf_form mx tev /\ 0 < prob elaw mx tev /\
  exists t, fresh (condition ioQ so_id po 9 (ids_of mx) exhash mx tev) = Ok t.
Proof.
  split; [exact mx_wf|]. split; [exact mx_typed|]. split; [apply ids_distinct|]. split; [exact mx_openz|]. split; [apply mx_steady; intros r []|]. split; [cbn; auto|]. split; [exact direct_tevz|]. split; [cbn; intuition|]. split; [discriminate|].
  split; [apply (mx_pos tev (7#8)); [exact mx_wf|exact direct_tev|cbn; intuition|reflexivity|rewrite lqP' by reflexivity; unfold Q2R; cbn; lra]|]. apply isok_ex. reflexivity.
Qed.
(** with a derived variable: sx of SpeEx.v has X, Y and Z = 2*X + 1 *)
Lemma sx_openz : open_leaves exnom whole true sx.
Proof. cbn. intuition (try discriminate); subst; reflexivity. Qed.
Lemma sx_steady : steady whole none sx.
Proof. cbn. repeat match goal with |- _ /\ _ => split end; try exact Logic.I; intros E r [H|[]]; first [discriminate E|exact H]. Qed.
Example C25_derived_case : wf_spe elaw sx /\ typed exnom exenvof sx /\ distinct (ids_of sx) sx /\ open_leaves exnom whole true sx /\ steady whole none sx /\ even (holds tev) sx /\
  direct exnom whole none tev /\ (forall x, In x (symbols tev) -> own sx x) /\ leaf_form sx tev /\ 0 < prob elaw sx tev /\
  exists t, fresh (condition ioQ so_id po 9 (ids_of sx) exhash sx tev) = Ok t.
Proof.
  split; [exact sx_wf|]. split; [exact sx_typed|]. split; [apply ids_distinct|]. split; [exact sx_openz|]. split; [exact sx_steady|]. split; [left; cbn; auto|]. split; [exact direct_tevz|]. split; [exact sx_own|]. split; [discriminate|].
  split; [|apply isok_ex; reflexivity]. destruct C54_derived_case as (W & Ds & O & De & V & Lf & _ & _ & E).
  destruct (C54_answers_partial (S:=LQ) (D:=DQ) ioQ po 9 elaw (ids_of sx) exhash exnom any any ltac:(lia) sx tev W Ds O De V Lf) as (q & Eq & Tq). rewrite E in Eq. injection Eq as <-. rewrite <- Tq. rewrite lqP' by reflexivity. unfold Q2R; cbn. lra.
Qed.
(** a uniform leaf on X <= 1/4 or X >= 3/4 *)
Lemma cmp_inner : forall a b lo ro, (forall r, eR a = Fin r -> 0 < r < 1) -> (forall r, eR b = Fin r -> 0 < r < 1) -> hasinf (N:=QS) (PB (BInt (mkIv (N:=QS) a b lo ro))) = false ->
  comparison exnom inner none (EBasic KInt X (PB (BInt (mkIv (N:=QS) a b lo ro)))).
Proof.
  intros a b lo ro Ha Hb H. exists KInt, "X", (PB (BInt (mkIv (N:=QS) a b lo ro))). split; [reflexivity|]. split; [discriminate|]. split; [exact Logic.I|]. split; [exact H|].
  split; [|intros vs u r [E|[]]; discriminate]. intros j [E|[]] r Hr. injection E as <-. destruct Hr as [Hr|Hr]; [exact (Ha r Hr)|exact (Hb r Hr)].
Qed.
Lemma cmp_low4 : comparison exnom inner none low4.
Proof. apply cmp_inner; [discriminate| |reflexivity]. intros r E. injection E as <-. cbn. unfold Q2R; cbn. lra. Qed.
Lemma cmp_high4 : comparison exnom inner none high4.
Proof. apply cmp_inner; [|discriminate|reflexivity]. intros r E. injection E as <-. cbn. unfold Q2R; cbn. lra. Qed.
Lemma direct_tails0 : direct exnom inner none tails.
Proof. split; [apply direct_tails|]. repeat (apply Forall_cons || apply Forall_nil); [exact cmp_low4|exact cmp_high4]. Qed.
Lemma tails_region : forall w r, holds tails (upd w "X" (FNum r)) <-> r <= 1/4 \/ 3/4 <= r.
Proof.
  intros w r. unfold tails. rewrite holds_or. split.
  - intros (e & [<-|[<-|[]]] & H); apply holds_basic in H; destruct H as (y & [= <-] & _ & H); destruct H as (H1 & H2); cbn in H1, H2; unfold ele, elt in H1, H2; cbn in H1, H2; unfold Q2R in H1, H2; cbn in H1, H2.
    + left. destruct H2 as [H2|H2]; [lra|injection H2 as ->; lra].
    + right. destruct H1 as [H1|H1]; [lra|injection H1 as <-; lra].
  - intros [H|H]; [exists low4|exists high4]; (split; [cbn; auto|]); apply holds_basic; exists (FNum r); (split; [reflexivity|]); (split; [exact Logic.I|]); (split; cbn; unfold ele, elt; cbn; auto); unfold Q2R; cbn.
    + destruct (Req_dec r (1/4)) as [->|]; [right; f_equal; lra|left; lra].
    + destruct (Req_dec r (3/4)) as [->|]; [right; f_equal; lra|left; lra].
Qed.
Lemma tails_even : even (holds tails) (lu "X").
Proof.
  intros _ w r Hr (eps & He & K). apply tails_region in Hr. destruct Hr as [Hr|Hr].
  - apply (K (r - eps / 2)); [rewrite Rabs_left; lra|lra|]. apply tails_region. lra.
  - apply (K (r + eps / 2)); [rewrite Rabs_right; lra|lra|]. apply tails_region. lra.
Qed.
Example C25_positive_leaf_case : wf_spe elaw (lu "X") /\ typed exnom exenvof (lu "X") /\ distinct (ids_of (lu "X")) (lu "X") /\ open_leaves exnom inner true (lu "X") /\ steady inner none (lu "X") /\ even (holds tails) (lu "X") /\
  direct exnom inner none tails /\ (forall x, In x (symbols tails) -> own (lu "X") x) /\ leaf_form (lu "X") tails /\ 0 < prob elaw (lu "X") tails /\
  exists t, fresh (condition ioQ so_id po 9 (ids_of (lu "X")) exhash (lu "X") tails) = Ok t.
Proof.
  destruct C54_cuts_case as (W & Ds & O & De & V & Lf & E).
  split; [exact W|]. split; [now apply lu_typed|]. split; [exact Ds|]. split; [exact O|]. split; [discriminate|]. split; [exact tails_even|]. split; [exact direct_tails0|]. split; [exact V|]. split; [exact Lf|].
  split; [|apply isok_ex; reflexivity].
  destruct (C54_answers_partial (S:=LQ) (D:=DQ) ioQ po 9 elaw (ids_of (lu "X")) exhash exnom inner any ltac:(lia) (lu "X") tails W Ds O De V Lf) as (q & Eq & Tq). rewrite E in Eq. injection Eq as <-. rewrite <- Tq. rewrite lqP' by reflexivity. unfold Q2R; cbn. lra.
Qed.
(** a mixture of two uniform leaves on X == 1/2 or X >= 3/4: the point has probability zero and is
    dropped before the leaves see the event *)
Definition duo : spQ := SumSPE (S:=LQ) [(lu "X", 1#2); (uo, 1#2)]%Q.
Definition half : tr QS := EBasic KReal X (fr [qn (1#2)]).
Definition spike : tr QS := EOr [half; high4].
Lemma duo_wf : wf_spe elaw duo.
Proof. apply two_wf; [exact (lu_wf "X")|exact uo_wf|cbn; tauto|reflexivity|reflexivity|unfold Q2R; cbn; lra]. Qed.
Lemma direct_spike : direct exnom inner none spike.
Proof.
  split.
  - apply (EventOr_ok [half; high4]); [|reflexivity]. constructor; [|constructor; [apply (good_int X (Fin (3#4)%Q) PInf false true); exact Logic.I || reflexivity|constructor]].
    split; [|reflexivity]. refine (conj Logic.I (conj Logic.I (conj _ _))); [|right; eexists; reflexivity]. cbn. split; [repeat constructor; intros []|discriminate].
  - repeat (apply Forall_cons || apply Forall_nil); [|exact cmp_high4].
    exists KReal, "X", (fr [qn (1#2)]). split; [reflexivity|]. split; [discriminate|]. split; [exact Logic.I|]. split; [reflexivity|]. split; [intros j [E|[]]; discriminate|].
    intros vs y r [E|[]] Hy Er. injection E as <-. destruct Hy as [<-|[]]. left. injection Er as <-. unfold inner. cbn. unfold Q2R; cbn. lra.
Qed.
Lemma duo_typed : typed exnom exenvof duo.
Proof.
  split; [repeat constructor; cbn [snd]; rewrite lqP' by reflexivity; unfold Q2R; cbn; lra|]. split; [apply lu_typed; reflexivity|]. split; [|exact Logic.I]. cbn. intuition (subst; reflexivity).
Qed.
Lemma duo_open : open_leaves exnom inner true duo.
Proof. cbn -[clear_support]. repeat (apply conj || exact Logic.I || reflexivity); intros _; [exact clear01|split; left; reflexivity]. Qed.
Example C25_positive_mixture_case : wf_spe elaw duo /\ typed exnom exenvof duo /\ distinct (ids_of duo) duo /\ open_leaves exnom inner true duo /\ steady inner none duo /\ even (holds spike) duo /\
  direct exnom inner none spike /\ (forall x, In x (symbols spike) -> own duo x) /\ leaf_form duo spike /\ 0 < prob elaw duo spike /\
  exists t, fresh (condition ioQ so_id po 9 (ids_of duo) exhash duo spike) = Ok t.
Proof.
  split; [exact duo_wf|]. split; [exact duo_typed|]. split; [apply ids_distinct|]. split; [exact duo_open|]. split; [cbn; intuition discriminate|]. split; [right; cbn; auto|]. split; [exact direct_spike|]. split; [cbn; intuition|]. split; [discriminate|].
  split; [|apply isok_ex; reflexivity].
  destruct (C54_answers_partial (S:=LQ) (D:=DQ) ioQ po 9 elaw (ids_of duo) exhash exnom inner none ltac:(lia) duo spike duo_wf (ids_distinct duo) duo_open direct_spike) as (q & Eq & Tq); [cbn; intuition|discriminate|].
  assert (E : fresh (logprob ioQ po 9 (ids_of duo) duo spike) = Ok (1#4)%Q) by reflexivity. rewrite E in Eq. injection Eq as <-. rewrite <- Tq. rewrite lqP' by reflexivity. unfold Q2R; cbn. lra.
Qed.
(** A mixture of an atom and a continuous leaf has an atom at 1/2, so the clause X == 1/2 stays and
    the continuous leaf meets it together with an interval (src/spe.py:893-894). *)
Definition lump : spQ := SumSPE (S:=LQ) [(lu "X", 1#2); (AtomicLeaf (N:=QS) "X" (1#2)%Q (Spe.base_env "X"), 1#2)]%Q.
Lemma lump_wf : wf_spe elaw lump.
Proof. apply two_wf; [exact (lu_wf "X")|apply atm_wf|cbn; tauto|reflexivity|reflexivity|unfold Q2R; cbn; lra]. Qed.
Lemma lump_typed : typed exnom (fun x => Spe.base_env (N:=QS) x) lump.
Proof.
  split; [repeat constructor; cbn [snd]; rewrite lqP' by reflexivity; unfold Q2R; cbn; lra|]. split; [apply lu_typed; reflexivity|]. split; [|exact Logic.I]. cbn. intuition (subst; reflexivity).
Qed.
Lemma lump_open : open_leaves exnom inner true lump.
Proof. split; [split; [reflexivity|]; intros _; exact clear01|]. split; [split; [reflexivity|]; intros y [<-|[]]; reflexivity|exact Logic.I]. Qed.
Theorem C25_positive_mixture_refuted : exists (s : spQ) e, wf_spe elaw s /\ typed exnom (fun x => Spe.base_env (N:=QS) x) s /\ distinct (ids_of s) s /\ open_leaves exnom inner true s /\ steady inner none s /\ direct exnom inner none e /\ (forall x, In x (symbols e) -> own s x) /\ leaf_form s e /\ 0 < prob elaw s e /\
  fresh (condition ioQ so_id po 9 (ids_of s) exhash s e) = Raise AssertionError.
Proof.
  exists lump, spike. split; [exact lump_wf|]. split; [exact lump_typed|]. split; [apply ids_distinct|]. split; [exact lump_open|]. split; [cbn; intuition discriminate|]. split; [exact direct_spike|]. split; [cbn; intuition|]. split; [discriminate|].
  split; [|reflexivity].
  destruct (C54_answers_partial (S:=LQ) (D:=DQ) ioQ po 9 elaw (ids_of lump) exhash exnom inner none ltac:(lia) lump spike lump_wf (ids_distinct lump) lump_open direct_spike) as (q & Eq & Tq); [cbn; intuition|discriminate|].
  assert (E : fresh (logprob ioQ po 9 (ids_of lump) lump spike) = Ok (5#8)%Q) by reflexivity. rewrite E in Eq. injection Eq as <-. rewrite <- Tq. rewrite lqP' by reflexivity. unfold Q2R; cbn. lra.
Qed.
(** X >= 1 and X == 2, asked of a mixture of a uniform and a discrete leaf *)
Definition x2 : tr QS := EBasic KReal X (PB (BReal [qn 2])).
Definition conv : tr QS := EAnd [xhigh; x2].
Lemma gev_x2 : gev x2.
Proof. split; [|reflexivity]. refine (conj Logic.I (conj Logic.I (conj _ _))); [|right; eexists; reflexivity]. cbn. split; [repeat constructor; intros []|discriminate]. Qed.
Lemma direct_conv : direct exnom whole whole conv.
Proof.
  split.
  - apply (EventAnd_ok [xhigh; x2]); [|reflexivity]. constructor; [apply (good_int X (qn 1) PInf false true); exact Logic.I || reflexivity|]. constructor; [exact gev_x2|constructor].
  - apply Forall_cons; [apply (cmp_xz whole (qn 1) PInf false true 1 0); auto|]. apply Forall_cons; [|constructor].
    exists KReal, "X", (PB (BReal [qn 2])). split; [reflexivity|]. split; [discriminate|]. split; [exact Logic.I|]. split; [reflexivity|]. split; [intros j [E|[]]; discriminate|].
    intros vs y r [E|[]] Hy Er. injection E as <-. destruct Hy as [<-|[]]. left. apply (whole_end (qn 2) 2 r); auto.
Qed.
Lemma slu_typed : typed exnom exenvof slu.
Proof.
  split.
  - repeat constructor; cbn [snd]; rewrite lqP' by reflexivity; unfold Q2R; cbn; lra.
  - split; [apply lu_typed; reflexivity|]. split; [apply ld_typed; reflexivity|exact Logic.I].
Qed.
Lemma slu_openz : open_leaves exnom whole false slu.
Proof. cbn. intuition discriminate. Qed.
Lemma slu_steady : steady whole whole slu.
Proof. cbn. repeat match goal with |- _ /\ _ => split end; try exact Logic.I; intros E r [H|H]; exact H. Qed.
Example C25_conjunctions_case : wf_spe elaw slu /\ typed exnom exenvof slu /\ distinct (ids_of slu) slu /\ open_leaves exnom whole false slu /\ steady whole whole slu /\
  direct exnom whole whole conv /\ conjunctive conv /\ (forall x, In x (symbols conv) -> own slu x) /\ leaf_form slu conv /\ 0 < prob elaw slu conv /\
  exists t, fresh (condition ioQ so_id po 9 (ids_of slu) exhash slu conv) = Ok t.
Proof.
  split; [exact slu_wf|]. split; [exact slu_typed|]. split; [apply ids_distinct|]. split; [exact slu_openz|]. split; [exact slu_steady|]. split; [exact direct_conv|]. split; [cbn; auto|]. split; [cbn; intuition|]. split; [discriminate|].
  split; [|apply isok_ex; reflexivity].
  destruct (C54_conjunctions_partial (S:=LQ) (D:=DQ) ioQ po 9 elaw (ids_of slu) exhash exnom whole whole ltac:(lia) slu conv slu_wf (ids_distinct slu) slu_openz direct_conv) as (q & Eq & Tq); [cbn; auto|cbn; intuition|discriminate|].
  rewrite <- Tq. match type of Eq with ?l = _ => assert (E : exists p, l = Ok p /\ 0 < toP (l0:=LQ) p) end.
  { eexists. split; [reflexivity|]. rewrite lqP' by reflexivity. unfold Q2R; cbn. lra. }
  destruct E as (p & Ep & Pp). rewrite Ep in Eq. injection Eq as <-. exact Pp.
Qed.
(** after the queries of DensEx.v *)
Example C25_after_case : closed (ids_of mx) (within mx) /\ Forall (PropSpe.fine elaw exnom exenvof (within mx)) [PropSpe.QLogprob mx yina; PropSpe.QCondition mx yina] /\ within mx mx.
Proof. exact C54_after_case. Qed.

Definition all_cond_total_properties := (@C54_union, @C25_positive_partial, @C25_conjunctions_partial, @C25_exactly_partial, @C25_after_partial, @C25_positive_mixture_refuted).
Print Assumptions all_cond_total_properties.
