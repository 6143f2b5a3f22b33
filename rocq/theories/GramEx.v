(** Cases for the theorems on what the translator accepts, and what it fails to refuse (C51). *)
From Coq Require Import List Bool String QArith Lia.
From Verif Require Import Base Num Sets SetBuilt Trans Source GramSpec PropGram SourceEx.
Import ListNotations.
Local Open Scope string_scope.
Local Open Scope list_scope.
Local Open Scope nat_scope.
Notation legalsQ := (legals (N:=QS) ex_isdist).

(** the program of SourceEx.v is in the language *)
Example C51_accepts_case : pdepth prog1 <= 9 /\ exists G, legalsQ outside start prog1 G /\ declared G = [("U", true); ("X", false); ("Y", false); ("V", false)].
Proof.
  assert (D : pdepth prog1 <= 9) by (cbn; lia). split; auto.
  destruct (proj1 (C51_accepts ex_isdist ex_unparse 9 prog1 D)) as (G & H); [exists (st1, is1); exact translate1|]. exists G. split; auto.
  exact (C51_declared ex_isdist ex_unparse 9 prog1 st1 is1 G D translate1 H).
Qed.
Example C51_once_case : exists G, legalsQ outside start prog1 G /\ NoDup ["U"; "X"; "Y"; "V"].
Proof. destruct C51_accepts_case as (_ & G & H & E). exists G. split; auto. pose proof (C51_once ex_isdist prog1 G H) as K. rewrite E in K. exact K. Qed.
(** the negation of a sample, a constant after sampling, an if without an alternative and an
    assignment in a loop are not in the language, and are refused *)
Definition neg_prog : list stmtQ := [SAssign [XName "X"] (XUn UNeg (dist_call "uniform"))].
Definition late_prog : list stmtQ := [SAssign [XName "X"] (dist_call "uniform"); SAssign [XName "h"] (XNumQ 1)].
Definition lone_prog : list stmtQ := [SAssign [XName "X"] (dist_call "uniform"); SIf test1 [SAssign [XName "Y"] (dist_call "uniform")] []].
Definition loop_prog : list stmtQ := [SFor ["i"] "range" [XNumQ 2] [SAssign [XName "X"] (dist_call "uniform")]].
Lemma neg_illegal : ~ exists G, legalsQ outside start neg_prog G.
Proof.
  intros (G & H). inversion H as [|? ? ? ? H1 _]; subst. inversion H1 as [| |? ? ? _ A| | | | | |]; subst.
  inversion A; subst; match goal with K : ~ random _ _ |- _ => apply K end; exists "uniform"; (split; [reflexivity|]); right; exists [], []; apply part_un, part_self.
Qed.
Example C51_refuses_case : pdepth neg_prog <= 9 /\ ~ (exists G, legalsQ outside start neg_prog G) /\
  Forall (fun p => ex_translate 9 p = Raise AssertionError) [neg_prog; late_prog; lone_prog; loop_prog].
Proof. split; [cbn; lia|]. split; [exact neg_illegal|]. repeat constructor. Qed.
(** In an alternative the translator only asks that the name is declared: this program assigns X
    twice whenever X < h is false, and Y never, and is accepted:
<<
X ~= uniform()
if X < h:  Y ~= uniform()
else:      X ~= randint(); X ~= choice()
>> *)
Definition twice_prog : list stmtQ :=
  [SAssign [XName "X"] (dist_call "uniform");
   SIf test1 [SAssign [XName "Y"] (dist_call "uniform")] [SAssign [XName "X"] (dist_call "randint"); SAssign [XName "X"] (dist_call "choice")]].
Theorem C51_twice_refuted : exists p c body s1 s2 s3, p = [s1; SIf c body [s2; s3]] /\ pdepth p <= 9 /\
  (forall s, s = s1 \/ s = s2 \/ s = s3 -> exists d, ex_isdist d = true /\ s = SAssign [XName "X"] (dist_call d)) /\
  (exists r, ex_translate 9 p = Ok r) /\ (exists G, legalsQ outside start p G).
Proof.
  exists twice_prog, test1, [SAssign [XName "Y"] (dist_call "uniform")], (SAssign [XName "X"] (dist_call "uniform")), (SAssign [XName "X"] (dist_call "randint")), (SAssign [XName "X"] (dist_call "choice")).
  assert (D : pdepth twice_prog <= 9) by (cbn; lia). split; [reflexivity|]. split; auto.
  assert (T : exists r, ex_translate 9 twice_prog = Ok r) by (eexists; reflexivity).
  split; [|split; auto; now apply (C51_accepts ex_isdist ex_unparse 9 twice_prog D)].
  intros s [->|[->| ->]]; eexists; (split; [|reflexivity]); reflexivity.
Qed.
Definition all_gram_properties := (@C51_accepts, @C51_refuses, @C51_declared, @C51_once, C51_accepts_case, C51_once_case, C51_refuses_case, C51_twice_refuted).
Print Assumptions all_gram_properties.
