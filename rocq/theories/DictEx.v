(** Cases and refutations for C39. *)
From Coq Require Import List Bool String Reals Lra Lia ZArith QArith Qabs Qreals FunctionalExtensionality.
From Verif Require Import Base Num Sets SetSpec SetIv SetProofs SetOr SetOps SetAlg SetBuilt
  Poly Trans TransSpec TransFacts PolyProofs InvProofs InvMain EvProofs ArithProofs PolyEx
  Dnf DnfSpec DnfProofs DnfUnion Logs Spe SpeSpec SpeFacts SpeRect LeafProofs LeafEvents LeafCond SpeCons LeafGiven MemoProofs PropTrans NormSorts LogprobProofs LogprobTop SpeEq SimplifyProofs CondTypes CondProofs CondTop PropSpe Uniform Instances SpeEx
  SpeOps OpsProofs BuildProofs TransformProofs PropCons ConsEx Dict DictSpec PropDict.
Import ListNotations.
Local Open Scope R_scope.
Local Open Scope string_scope.

(** Floats with four binary digits after the point: fractions like 1/3 are rounded when they are read. *)
Definition rnd (q : Q) : Q := if Z.eqb (16 mod (Zpos (Qden q)))%Z 0 then q else Qred (((16 * Qnum q) / Zpos (Qden q))%Z # 16).
Definition reparseQ (c : ext (num QS)) : res (ext (num QS)) := match c with Fin q => Ok (qn (rnd q)) | c => Ok c end.
Definition exactQ (c : ext (num QS)) : Prop := reparseQ c = Ok c.
Definition redistQ (d : edist) : res edist := Ok d.
Notation madeQ := (made (N:=QS) ioQ po 9 exactQ).
Notation from_dictQ := (spe_from_dict (N:=QS) (D:=DQ) ioQ po 9 reparseQ redistQ rnd).
Notation evalQ := (eval (N:=QS) ioQ po 9 reparseQ).

Lemma rnd_exact : forall c : Q, reparseQ (qn c) = Ok (qn c) -> rnd c = c.
Proof. intros c H. injection H as H. exact H. Qed.
Lemma exenv_made : made_env (N:=QS) ioQ po 9 exactQ exenv.
Proof. intros p [<-|[<-|[]]]; [exact Logic.I|]. split; [exact Logic.I|]. split; [repeat constructor|cbn; lia]. Qed.
Lemma sx_made : made_spe (N:=QS) (D:=DQ) ioQ po 9 exactQ sx.
Proof.
  assert (I1 : made_interval (N:=QS) exactQ i01) by (split; [reflexivity|split; [reflexivity|now apply iv_wf]]).
  assert (I3 : made_interval (N:=QS) exactQ i03) by (split; [reflexivity|split; [reflexivity|now apply iv_wf]]).
  assert (Y1 : made_spe (N:=QS) (D:=DQ) ioQ po 9 exactQ y1) by (split; [discriminate|repeat constructor]).
  assert (Y2 : made_spe (N:=QS) (D:=DQ) ioQ po 9 exactQ y2) by (split; [discriminate|repeat constructor]).
  assert (U : made_spe (N:=QS) (D:=DQ) ioQ po 9 exactQ ux) by (split; [exact I1|exact exenv_made]).
  assert (V : made_spe (N:=QS) (D:=DQ) ioQ po 9 exactQ dx) by (split; [exact I3|exact exenv_made]).
  assert (A : made_spe (N:=QS) (D:=DQ) ioQ po 9 exactQ ax) by (split; [reflexivity|exact exenv_made]).
  repeat (split; try assumption; try exact Logic.I).
Qed.
(** a sum of products of leaves, with a derived variable *)
Example C39_round_trip_case : wf_spe elaw sx /\ made_spe (N:=QS) (D:=DQ) ioQ po 9 exactQ sx /\ (forall d, redistQ d = Ok d) /\ (forall c : Q, reparseQ (qn c) = Ok (qn c) -> rnd c = c) /\ from_dictQ (spe_to_dict sx) = Ok sx.
Proof. split; [exact sx_wf|]. split; [exact sx_made|]. split; [reflexivity|]. split; [exact rnd_exact|]. apply (C39_round_trip_partial (N:=QS) (D:=DQ) ioQ po 9 elaw reparseQ redistQ rnd); [reflexivity|exact rnd_exact|exact sx_wf|exact sx_made]. Qed.

(** a function in two pieces: 2**X/4 + 1 for X < 1/2, and 1/|X| for X >= 3/4 or X << {1/2} *)
Definition piece1 : tr QS := TPoly (TExp X 2%Q) [1; 1#4]%Q.
Definition ev1 : tr QS := EBasic KInt X (iv NInf (qn (1#2)) true true).
Definition ev2 : tr QS := EOr [EBasic KInt X (iv (qn (3#4)) PInf false true); EBasic KReal X (fr [qn (1#2)])].
Definition pieces : tr QS := TPiece [(piece1, ev1); (TRecip (TAbs X), ev2)].
Example C39_text_case : madeQ pieces /\ evalQ (repr_tr pieces) = Ok (RvTr pieces) /\ List.length (symbols pieces) = 1%nat.
Proof.
  assert (H : madeQ pieces).
  { split.
    - cbn [All fst snd]. split; [|split; [|exact Logic.I]]; split.
      + split; [|split; [repeat constructor|cbn; lia]]. split; [exact Logic.I|]. split; [reflexivity|]. cbn. unfold Q2R; cbn; lra.
      + split; [exact Logic.I|]. split; [reflexivity|]. split; [reflexivity|]. split; [exact Logic.I|]. split; [reflexivity|discriminate].
      + exact Logic.I.
      + split; [discriminate|]. cbn [All]. split; [|split; [|exact Logic.I]]; (split; [|reflexivity]); split; try exact Logic.I.
        * split; [reflexivity|]. split; [reflexivity|]. split; [exact Logic.I|]. split; [discriminate|reflexivity].
        * split; [repeat constructor|]. split; [discriminate|reflexivity].
    - reflexivity. }
  split; [exact H|]. split; [|reflexivity]. apply (C39_text (N:=QS) ioQ po 9 reparseQ pieces H).
Qed.

(** ** Where it fails *)
(** The constant 1/3 is written as it is and read with float(): another constant comes back, whatever float gives for 1/3. *)
Theorem C39_rational_refuted : forall tofloat : Q -> Q, ~ (tofloat (1#3) == 1#3)%Q -> exists s t : spQ, wf_spe elaw s /\
  spe_from_dict (N:=QS) (D:=DQ) ioQ po 9 reparseQ redistQ tofloat (spe_to_dict s) = Ok t /\
  Pr elaw s (fun w => w "X" = FNum (/3)) = 1 /\ Pr elaw t (fun w => w "X" = FNum (/3)) = 0.
Proof.
  intros tofloat H. exists (atm (1#3) base_env), (atm (tofloat (1#3)) base_env). split; [apply atm_wf|]. split; [reflexivity|]. unfold Pr. cbn [den atm]. split.
  - apply ind_true. cbn. unfold Q2R; cbn. f_equal. lra.
  - apply ind_false. cbn. intros K. injection K as K. apply H. apply eqR_Qeq. rewrite K. unfold Q2R; cbn. lra.
Qed.
(** The text of an event on all strings, FiniteNominal(, b=True), is no Python: an expression with the derived variable
    X << Strings is written and cannot be read. *)
Theorem C39_strings_refuted : forall reparse redist tofloat, exists (s t : spQ) e, wf_spe elaw s /\ transform s "E" e = Ok t /\ spe_from_dict (N:=QS) (D:=DQ) ioQ po 9 reparse redist tofloat (spe_to_dict t) = Raise ValueError.
Proof.
  intros reparse redist tofloat. exists (atm 0 base_env), (atm 0 (base_env ++ [("E", EBasic KNom X (PB (BNom [] (Some true))))])%list), (EBasic KNom X (PB (BNom [] (Some true)))). split; [apply atm_wf|]. split; reflexivity.
Qed.
(** The endpoint 1/3 of a support comes back rounded: the interval is another one. *)
Definition third : spQ := RealLeaf (D:=DQ) false "X" DUnif (mkIv (qn 0) (qn (1#3)) false false) true exenv.
Definition five16 : spQ := RealLeaf (D:=DQ) false "X" DUnif (mkIv (qn 0) (qn (5#16)) false false) true exenv.
Lemma third_wf : wf_spe elaw third.
Proof.
  apply real_wf; [now apply iv_wf|discriminate|exact unif_dist|]. set (supp := mkIv (qn 0) (qn (1#3)) false false : interval QS). change (elaw DUnif) with unif.
  pose proof (unif_cdf (Fin (/3))) as C1. pose proof (unif_cdf (Fin 0)) as C0. cbn [clamp] in *. rewrite Rmax_right, Rmin_right in C1 by lra. rewrite Rmax_left, Rmin_right in C0 by lra.
  apply Rlt_le_trans with (unif (ind (at_most (Fin (/3)))) - unif (ind (at_most (Fin 0)))); [lra|]. rewrite <- (law_minus unif_law) by auto with bnd. apply (law_mono unif_law); auto with bnd.
  intros v. destruct (dec (at_most (Fin (/3)) v)) as [A1|A1].
  - rewrite (ind_true _ (at_most (Fin (/3)))) by auto. destruct (dec (at_most (Fin 0) v)) as [A0|A0]; [rewrite ind_true by auto; pose proof (ind_01 _ (in_iv supp) v); lra|].
    rewrite (ind_true _ (in_iv supp)); [rewrite ind_false by auto; lra|]. destruct A1 as (r & -> & A1). apply ele_fin in A1. assert (0 < r) by (apply Rnot_le_lt; intros Hr; apply A0; exists r; split; auto; now apply ele_fin).
    apply in_iv_num. cbn. unfold Q2R; cbn. lra.
  - rewrite (ind_false _ (at_most (Fin (/3)))) by auto. pose proof (ind_01 _ (in_iv supp) v). pose proof (ind_01 _ (at_most (Fin 0)) v). lra.
Qed.
Theorem C39_support_refuted : exists s t : spQ, wf_spe elaw s /\ from_dictQ (spe_to_dict s) = Ok t /\ speqb s t = false.
Proof. exists third, five16. split; [exact third_wf|]. split; reflexivity. Qed.

Definition all_dict_properties := (@C39_text, @C39_round_trip_partial, @C39_round_trip_case, @C39_text_case, @C39_rational_refuted, @C39_strings_refuted, @C39_support_refuted).
Print Assumptions all_dict_properties.
