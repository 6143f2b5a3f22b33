(** Cases and refutations for C42, C43 and C47. *)
From Coq Require Import List Bool String DecimalString Reals Lra Lia ZArith QArith Qabs Qreals FunctionalExtensionality.
From Verif Require Import Base Num Sets SetSpec SetIv SetProofs SetOr SetOps SetAlg SetBuilt
  Poly Trans TransSpec TransFacts PolyProofs InvProofs InvMain EvProofs ArithProofs PolyEx
  Dnf DnfSpec DnfProofs DnfUnion Logs Spe SpeSpec SpeFacts SpeRect LeafProofs LeafEvents LeafCond SpeCons LeafGiven MemoProofs PropTrans NormSorts LogprobProofs LogprobTop SpeEq SimplifyProofs CondTypes CondProofs CondTop PropSpe Uniform Instances SpeEx
  SpeOps OpsProofs BuildProofs TransformProofs PropCons ConsEx Same Prog ProgSpec ProgEvents ProgProofs PropProg ProgEx Source SourceSpec SourceExpr SourceKernel SourceVisit SourceProofs SourceNames PropSource.
Import ListNotations.
Local Open Scope R_scope.
Local Open Scope string_scope.
Notation exprQ := (expr QS).
Notation stmtQ := (stmt QS).
Notation envQ := (Source.env (N:=QS)).
Notation pyQ := (pyval (N:=QS)).
Definition ex_call : string -> list pyQ -> list (string * pyQ) -> res pyQ := fun f args _ =>
  if String.eqb f "nominals" then Ok (PSet (fn ["a"; "b"]))
  else if String.eqb f "enumerate" then match args with [PColl l] => Ok (PEnum l) | _ => Raise TypeError end
  else Raise TypeError.
Definition ex_isdist (f : string) : bool := String.eqb f "uniform" || String.eqb f "choice" || String.eqb f "randint".
Definition ex_deval (g : envQ) (e : exprQ) : res (distribution (N:=QS) (D:=DQ)) :=
  match e with
  | XCall f _ _ => if String.eqb f "uniform" then Ok dU else if String.eqb f "choice" then Ok dY else if String.eqb f "randint" then Ok dV else Raise TypeError
  | _ => Raise TypeError
  end.
Definition ex_aeval (g : envQ) (e : exprQ) : res (assignment (N:=QS)) := Raise TypeError.
Definition ex_unparse (t v : exprQ) : string := match t with XName x => x | _ => "" end.
Notation ex_peval := (peval (N:=QS) ioQ po 9 ex_call).
Notation ex_translate := (translate (N:=QS) ex_isdist ex_unparse).
Notation ex_command := (the_command (N:=QS) (D:=DQ) ioQ po 9 ex_call ex_deval ex_aeval).
Notation ex_of := (command_of (N:=QS) (D:=DQ) ioQ po 9 ex_call ex_deval ex_aeval).
Definition XNumQ (q : Q) : exprQ := XNum (N:=QS) q.
Definition PNumQ (q : Q) : pyQ := PNum (N:=QS) q.
Definition dist_call (f : string) : exprQ := XCall f [] [].

(** ** A program
<<
h = 1/2
U = array(2)
X ~= uniform()
Y ~= choice()
if X < h:       V ~= uniform()
elif Y == 'a':  V ~= randint()
else:           V ~= randint(); pass
for i in range(2):  U[i] ~= uniform()
>> *)
Definition test1 : exprQ := XCmp (XName "X") [(CLt, XName "h")].
Definition test2 : exprQ := XCmp (XName "Y") [(CEq, XText "a")].
Definition setV (f : string) : stmtQ := SAssign [XName "V"] (dist_call f).
Definition if2 : stmtQ := SIf test2 [setV "randint"] [setV "randint"; SNone].
Definition if1 : stmtQ := SIf test1 [setV "uniform"] [if2].
Definition prog1 : list stmtQ :=
  [SAssign [XName "h"] (XNumQ (1#2)); SAssign [XName "U"] (XCall "array" [XNumQ 2] []);
   SAssign [XName "X"] (dist_call "uniform"); SAssign [XName "Y"] (dist_call "choice");
   if1; SFor ["i"] "range" [XNumQ 2] [SAssign [XItem (XName "U") (XName "i")] (dist_call "uniform")]].
Definition un (x : string) : item QS := ISample (XItem (XName "U") (XName x)) (dist_call "uniform").
Definition is1 : list (item QS) :=
  [ISequence [ISample (XName "X") (dist_call "uniform"); ISample (XName "Y") (dist_call "choice");
    IIfElse [IExpr test1; ISample (XName "V") (dist_call "uniform");
             IExpr (XBin BShift (XName "Y") (XSet [XText "a"])); ISample (XName "V") (dist_call "randint");
             IExpr (XBool true); ISequence [ISample (XName "V") (dist_call "randint")]];
    IFor (XNum (nint 0)) (XNumQ 2) "i" [un "i"]]].
Definition st1 : vstate QS := VState false [CGlobal] [] [(XName "h", XNumQ (1#2))] [("U", Some (XNumQ 2)); ("X", None); ("Y", None); ("V", None)] ["uniform"; "choice"; "randint"].
Definition g1 : envQ :=
  [("U", PColl [PTr (TId "U[0]"); PTr (TId "U[1]")]); ("V", PTr (TId "V")); ("Y", PTr (TId "Y")); ("X", PTr (TId "X")); ("h", PNumQ (1#2))].
Definition bs1 : list (option (tr QS) * cmdQ) := [(Some xhalf, samp "V" dU); (Some yina, samp "V" dV); (None, Sequence [samp "V" dV])].
Definition c1 : cmdQ := Sequence [samp "X" dU; samp "Y" dY; IfElse bs1; For 0 2 (fun z => match ex_of (("i", PNumQ (inject_Z z)) :: g1) (un "i") with Ok c => c | Raise e => bad e end)].
Lemma translate1 : ex_translate 9 prog1 = Ok (st1, is1).
Proof. reflexivity. Qed.
Lemma env1 : module_env ioQ po 9 ex_call st1 = Ok g1.
Proof. reflexivity. Qed.
Lemma command1 : ex_command g1 is1 = Ok c1.
Proof. reflexivity. Qed.
Lemma solid1 : All solid prog1.
Proof. cbn. tauto. Qed.
Lemma bs1_fits : forall (s : spQ) (V : string -> Prop), wf_spe elaw s -> typed exnom no_env s -> (forall x, vars s x <-> V x) -> V "X" -> V "Y" ->
  fits elaw exnom (IfElse bs1) V (den elaw s) (fun z => V z \/ z = "V").
Proof.
  intros s V W T E Vx Vy. pose proof (bs_fits s V W T E Vx Vy) as F. inversion F; subst. apply fits_if; auto.
  - intros w. apply else_covers; auto. cbn. auto.
  - intros P c Hc _. apply (in_map snd) in Hc. rewrite firsts_snd in Hc. cbn [snd bs1 map] in Hc. destruct Hc as [<-|[<-|[<-|[]]]].
    + apply (fits_sample elaw exnom "V" dU (lu "V")); [reflexivity|now apply sample_u|tauto].
    + apply (fits_sample elaw exnom "V" dV (ld "V")); [reflexivity|now apply sample_d|tauto].
    + apply fits_cons with (V' := fun z => V z \/ z = "V"); [apply (fits_sample elaw exnom "V" dV (ld "V")); [reflexivity|now apply sample_d|tauto]|]. apply fits_nil.
Qed.
Definition vars1 (z : string) : Prop := (((((False \/ z = "X") \/ z = "Y") \/ z = "V") \/ z = "U[0]") \/ z = "U[1]").
Lemma fits1 : fits elaw exnom c1 (fun _ => False) start vars1.
Proof.
  apply fits_cons with (V' := fun z => False \/ z = "X"); [apply (fits_sample elaw exnom "X" dU (lu "X")); [reflexivity|now apply sample_u|tauto]|].
  apply fits_cons with (V' := fun z => (False \/ z = "X") \/ z = "Y"); [apply (fits_sample elaw exnom "Y" dY y1); [reflexivity| |tauto]|].
  { split; [apply y_wf; easy|]. split; [cbn; auto|]. intros z. cbn. intuition. }
  apply fits_cons with (V' := fun z => ((False \/ z = "X") \/ z = "Y") \/ z = "V").
  { change (meaning elaw (samp "Y" dY) (meaning elaw (Sample "X" dU) start)) with (den elaw pxy). apply (bs1_fits pxy (fun z => (False \/ z = "X") \/ z = "Y")); [exact pxy_wf|exact pxy_typed| |auto..]. intros z. cbn. intuition. }
  apply fits_cons with (V' := vars1); [apply fits_for; cbn [range Z.to_nat Z.sub Pos.to_nat map seq]|apply fits_nil].
  apply fits_cons with (V' := fun z => ((((False \/ z = "X") \/ z = "Y") \/ z = "V") \/ z = "U[0]")); [apply (fits_sample elaw exnom "U[0]" dU (lu "U[0]")); [reflexivity|now apply sample_u|tauto]|].
  apply fits_cons with (V' := vars1); [apply (fits_sample elaw exnom "U[1]" dU (lu "U[1]")); [reflexivity|now apply sample_u|unfold vars1; tauto]|]. apply fits_nil.
Qed.
Definition t1 : spQ := match ProgEx.run c1 None with Ok (Some t) => t | _ => sx end.
Lemma run1 : ProgEx.run c1 None = Ok (Some t1).
Proof. assert (K : okopt (ProgEx.run c1 None) = true) by (vm_compute; reflexivity). destruct (okopt_ok _ _ K) as (t & Et). unfold t1. rewrite Et. reflexivity. Qed.

(** the tests have values, since X is a number and Y a string *)
Lemma var_term : forall (g : envQ) x t, Source.lookup g x = Ok (PTr (TId t)) -> term ex_peval g (XName x).
Proof. intros g x t H. split; [reflexivity|]. intros u E. cbn [peval] in E. rewrite H in E. injection E as <-. eauto. Qed.
Lemma num_term : forall (g : envQ) x c, Source.lookup g x = Ok (PNum c) -> term ex_peval g (XName x).
Proof. intros g x t H. split; [reflexivity|]. intros u E. cbn [peval] in E. rewrite H in E. discriminate. Qed.
Lemma cond1 : cond ex_peval g1 test1.
Proof. split; [now apply (var_term g1 "X" "X")|now apply (num_term g1 "h" (1#2)%Q)]. Qed.
Lemma cond2 : cond ex_peval g1 test2.
Proof. split; [now apply (var_term g1 "Y" "Y")|]. split; [exact Logic.I|]. right. exists "a". reflexivity. Qed.
Lemma test1_at : forall a r, a "X" = FNum r -> seval ex_peval g1 test1 a = Some (SB (bool_of (r < Q2R (1#2)))).
Proof. intros a r H. change (seval ex_peval g1 test1 a) with (match scmp CLt (Some (SV (a "X"))) (Some (SV (FNum (Q2R (1#2))))) (Ok (PNumQ (1#2))) with Some p => Some (SB (p && true)) | None => None end). rewrite H. cbn [scmp]. now rewrite andb_true_r. Qed.
Lemma test2_at : forall a r, a "Y" = FStr r -> seval ex_peval g1 test2 a = Some (SB (bool_of (FStr r = FStr "a"))).
Proof. intros a r H. change (seval ex_peval g1 test2 a) with (match scmp (N:=QS) CEq (Some (SV (a "Y"))) (Some (SV (FStr "a"))) (Ok (PText "a")) with Some p => Some (SB (p && true)) | None => None end). rewrite H. cbn [scmp alike]. now rewrite andb_true_r. Qed.
Lemma pxy_vars : forall z, vars pxy z <-> z = "X" \/ z = "Y".
Proof. intros z. cbn. intuition. Qed.
Lemma pxy_sorted : surely elaw pxy (fun a => (exists r, a "X" = FNum r) /\ exists r, a "Y" = FStr r).
Proof.
  apply (surely_imp pxy _ _ pxy_wf (sorted_vars no_env pxy pxy_wf pxy_typed)). intros a Ha. split; [apply (sort_numv "X"); auto; apply Ha, pxy_vars; auto|apply (sort_strv "Y"); auto; apply Ha, pxy_vars; auto].
Qed.
Lemma tested1 : surely elaw pxy (fun a => seval ex_peval g1 test1 a <> None).
Proof. apply (surely_imp pxy _ _ pxy_wf pxy_sorted). intros a ((r & Hr) & _). rewrite (test1_at a r Hr). discriminate. Qed.
Lemma tested2 : surely elaw pxy (fun a => seval ex_peval g1 test2 a <> None).
Proof. apply (surely_imp pxy _ _ pxy_wf pxy_sorted). intros a (_ & (r & Hr)). rewrite (test2_at a r Hr). discriminate. Qed.
Lemma none_null : forall (K : ProgSpec.kernel) (h : asg -> option sv) w, K (ind (fun a => ~ h a <> None)) w = 0 -> K (ind (fun a => h a = None)) w = 0.
Proof. intros K h w H. rewrite <- H. apply me_ind. intros a. destruct (h a); intuition congruence. Qed.
Lemma sane1 : sane_program ex_peval ex_isdist ex_deval elaw g1 prog1.
Proof.
  intros w. unfold prog1. cbn [sanes].
  split; [exact Logic.I|]. split; [exact Logic.I|]. split; [reflexivity|]. split; [reflexivity|]. split; [|split; [|exact Logic.I]].
  - match goal with |- sane _ _ _ _ _ _ ?k _ ?K => change K with (den elaw pxy) end. split; [|split].
    + split; [exact cond1|]. apply none_null. apply tested1.
    + intros _. split; [reflexivity|exact Logic.I].
    + intros _. split; [|exact Logic.I]. split; [|split; intros _; (split; [reflexivity|]); try exact Logic.I].
      * split; [exact cond2|]. apply none_null. apply (sure_restrict pxy _ _ pxy_wf tested2).
      * split; exact Logic.I.
  - cbn [sane]. change (bounds ex_peval g1 [XNumQ 2]) with (Some (0, 2)%Z). cbn [String.eqb Ascii.eqb Bool.eqb].
    change (range 0 2) with [0; 1]%Z. cbn [loop_ok]. repeat split; try exact Logic.I.
Qed.
Example C47_program_case : ex_translate 9 prog1 = Ok (st1, is1) /\ module_env ioQ po 9 ex_call st1 = Ok g1 /\ NoDup (map (text ex_unparse) (fixed ex_isdist (fun _ => false) prog1)) /\
  ex_command g1 is1 = Ok c1 /\ (forall w, able w elaw c1 start) /\ fits elaw exnom c1 (fun _ => False) start vars1 /\ ProgEx.run c1 None = Ok (Some t1) /\ All solid prog1 /\ sane_program ex_peval ex_isdist ex_deval elaw g1 prog1.
Proof.
  split; [exact translate1|]. split; [exact env1|]. split; [apply NoDup_cons; [intros []|apply NoDup_nil]|]. split; [exact command1|]. split; [intros w; exact (fits_able w elaw exnom c1 _ _ _ fits1)|].
  split; [exact fits1|]. split; [exact run1|]. split; [exact solid1|exact sane1].
Qed.

(** ** A program
<<
X ~= uniform()
Y ~= choice()
for n, v in switch(Y, enumerate(['a', nominals()])):
  T ~= 2*X + n
  condition(T < 2)
>> *)
Definition term_t : exprQ := XBin BAdd (XBin BMul (XNumQ 2) (XName "X")) (XName "n").
Definition test_t : exprQ := XCmp (XName "T") [(CLt, XNumQ 2)].
Definition values2 : exprQ := XCall "enumerate" [XSeq [XText "a"; XCall "nominals" [] []]] [].
Definition body2 : list stmtQ := [SAssign [XName "T"] term_t; SCall "condition" [test_t]].
Definition prog2 : list stmtQ :=
  [SAssign [XName "X"] (dist_call "uniform"); SAssign [XName "Y"] (dist_call "choice"); SFor ["n"; "v"] "switch" [XName "Y"; values2] body2].
Definition it2 : item QS := ISequence [ITransform (XName "T") term_t; ICondition test_t].
Definition is2 : list (item QS) := [ISequence [ISample (XName "X") (dist_call "uniform"); ISample (XName "Y") (dist_call "choice"); ISwitch (XName "Y") values2 ["n"; "v"] [it2]]].
Definition st2 : vstate QS := VState false [CGlobal] [] [] [("X", None); ("Y", None); ("T", None)] ["uniform"; "choice"].
Definition g2 : envQ := [("T", PTr (TId "T")); ("Y", PTr (TId "Y")); ("X", PTr (TId "X"))].
Definition f2 (n : nat) (v : sval (N:=QS)) : cmdQ := match switch_args true ["n"; "v"] n v with Some h => match ex_of (app h g2) it2 with Ok c => c | Raise e => bad e end | None => bad TypeError end.
Definition c2 : cmdQ := Sequence [samp "X" dU; samp "Y" dY; Switch "Y" vs_y f2].
Lemma translate2 : ex_translate 9 prog2 = Ok (st2, is2).
Proof. reflexivity. Qed.
Lemma env2 : module_env ioQ po 9 ex_call st2 = Ok g2.
Proof. reflexivity. Qed.
Lemma command2 : ex_command g2 is2 = Ok c2.
Proof. reflexivity. Qed.
Lemma solid2 : All solid prog2.
Proof. cbn. tauto. Qed.
Lemma f2_at : f2 0 (VText "a") = f_t 0 (VText "a") /\ f2 1 (VSet (fn ["a"; "b"])) = f_t 1 (VSet (fn ["a"; "b"])).
Proof. split; reflexivity. Qed.
Definition vars2 (z : string) : Prop := ((False \/ z = "X") \/ z = "Y") \/ z = "T".
Lemma fits2 : fits elaw exnom c2 (fun _ => False) start vars2.
Proof.
  apply fits_cons with (V' := fun z => False \/ z = "X"); [apply (fits_sample elaw exnom "X" dU (lu "X")); [reflexivity|now apply sample_u|tauto]|].
  apply fits_cons with (V' := fun z => (False \/ z = "X") \/ z = "Y"); [apply (fits_sample elaw exnom "Y" dY y1); [reflexivity| |tauto]|].
  { split; [apply y_wf; easy|]. split; [cbn; auto|]. intros z. cbn. intuition. }
  apply fits_cons with (V' := vars2); [|apply fits_nil]. change (meaning elaw (samp "Y" dY) (meaning elaw (samp "X" dU) start)) with (den elaw pxy).
  apply fits_switch; [auto|exact vs_ok|intros w; exact (covers_prod (lu "X") (1#4) (3#4) pxy_wf w)|].
  intros P c Hc _. apply (in_map snd) in Hc. rewrite firsts_snd in Hc. cbn [snd] in Hc. assert (exists n, c = Sequence [Transform "T" (T_n n); Condition tlt]) as (n & ->).
  { destruct f2_at as (E0 & E1). destruct Hc as [<-|[<-|[]]]; [exists 0%nat; exact E0|exists 1%nat; exact E1]. }
  apply fits_cons with (V' := vars2); [|apply fits_cons with (V' := vars2); [|apply fits_nil]].
  - apply fits_transform.
    + split; exact Logic.I.
    + exact Logic.I.
    + reflexivity.
    + exists "X". intros x [<-|[]]. reflexivity.
    + apply sure_restrict; [exact pxy_wf|]. apply (surely_imp pxy _ _ pxy_wf pxy_sorted). intros a ((r & Er) & _). cbn [teval T_n X]. rewrite Er. discriminate.
    + apply sure_restrict; [exact pxy_wf|]. apply surely_all; [exact pxy_wf|]. intros a. exact Logic.I.
    + unfold vars2. tauto.
  - apply fits_condition.
    + split; [exact gev_tlt|]. split; [apply Forall_cons; [apply uni_lit|apply Forall_nil]|]. split; [apply Forall_cons; [apply sort_num; [discriminate|intros x [<-|[]]; reflexivity]|apply Forall_nil]|]. intros x [<-|[]]. unfold vars2. auto.
    + apply sure_never; [exact pxy_wf|]. intros a. apply plain_regular; cbn; intuition discriminate.
Qed.
Definition t2 : spQ := match ProgEx.run c2 None with Ok (Some t) => t | _ => sx end.
Lemma run2 : ProgEx.run c2 None = Ok (Some t2).
Proof. assert (K : okopt (ProgEx.run c2 None) = true) by (vm_compute; reflexivity). destruct (okopt_ok _ _ K) as (t & Et). unfold t2. rewrite Et. reflexivity. Qed.
Lemma case2_ok : forall (v : pyQ) (q : Q) (P : asg -> Prop) w (g : envQ), g = ("v", v) :: ("n", PNumQ q) :: g2 ->
  sanes (N:=QS) ex_isdist (smean ex_peval ex_isdist ex_deval elaw g) (sane ex_peval ex_isdist ex_deval elaw w g) (fun y => String.eqb y "Y" || (String.eqb y "X" || false)) body2 (restrict (den elaw pxy) P).
Proof.
  intros v q P w g Eg. assert (Tt : term ex_peval g term_t).
  { split; [split; [exact Logic.I|]|]; [apply (var_term g "X" "X")|apply (num_term g "n" q)]; rewrite Eg; reflexivity. }
  assert (Tv : forall a r, a "X" = FNum r -> seval ex_peval g term_t a = Some (SV (FNum (Q2R 2 * r + Q2R q)))).
  { intros a r H. rewrite Eg. change (seval ex_peval (("v", v) :: ("n", PNumQ q) :: g2) term_t a) with (sbin BAdd (sbin BMul (Some (SV (FNum (Q2R 2)))) (Some (SV (a "X")))) (Some (SV (FNum (Q2R q))))). rewrite H. reflexivity. }
  split; [|split; [|exact Logic.I]].
  - split; [exact Tt|]. apply none_null. apply (sure_restrict pxy _ _ pxy_wf). apply (surely_imp pxy _ _ pxy_wf pxy_sorted). intros a ((r & Hr) & _). fold term_t. rewrite (Tv a r Hr). discriminate.
  - split; [split; [apply (var_term g "T" "T"); rewrite Eg; reflexivity|exact Logic.I]|].
    match goal with |- ?K _ _ = 0 => replace K with (put "T" (seval ex_peval g term_t) (restrict (den elaw pxy) P)) by (rewrite Eg; reflexivity) end. unfold put.
    rewrite (me_ext w _ _ (ind (fun a => ~ seval ex_peval g test_t (upd a "T" (sval_or (seval ex_peval g term_t a))) <> None))) by (intros a; apply ind_eq; destruct (seval ex_peval g test_t _); intuition congruence).
    apply (sure_restrict pxy P (fun a => seval ex_peval g test_t (upd a "T" (sval_or (seval ex_peval g term_t a))) <> None) pxy_wf). apply (surely_imp pxy _ _ pxy_wf pxy_sorted). intros a ((r & Hr) & _). rewrite (Tv a r Hr). cbn [sval_or]. rewrite Eg.
    change (seval ex_peval (("v", v) :: ("n", PNumQ q) :: g2) test_t (upd a "T" (FNum (Q2R 2 * r + Q2R q)))) with (match scmp (N:=QS) CLt (Some (SV (FNum (Q2R 2 * r + Q2R q)))) (Some (SV (FNum (Q2R 2)))) (Ok (PNumQ 2)) with Some p => Some (SB (p && true)) | None => None end). discriminate.
Qed.
Lemma sane2 : sane_program ex_peval ex_isdist ex_deval elaw g2 prog2.
Proof.
  intros w. unfold prog2. cbn [sanes]. split; [reflexivity|]. split; [reflexivity|]. split; [|exact Logic.I].
  match goal with |- sane _ _ _ _ _ _ ?k _ ?K => change K with (den elaw pxy) end. cbn [sane String.eqb Ascii.eqb Bool.eqb]. change (target ex_peval g2 (XName "Y")) with (Some "Y").
  intros Q h Hq _. apply (in_map snd) in Hq. rewrite firsts_snd in Hq. cbn [snd] in Hq. destruct Hq as [<-|[<-|[]]].
  - exact (case2_ok (PText "a") 0 Q w _ eq_refl).
  - exact (case2_ok (PSet (fn ["a"; "b"])) 1 Q w _ eq_refl).
Qed.
Example C47_switch_case : ex_translate 9 prog2 = Ok (st2, is2) /\ module_env ioQ po 9 ex_call st2 = Ok g2 /\ ex_command g2 is2 = Ok c2 /\ fits elaw exnom c2 (fun _ => False) start vars2 /\ ProgEx.run c2 None = Ok (Some t2) /\
  All solid prog2 /\ sane_program ex_peval ex_isdist ex_deval elaw g2 prog2.
Proof. split; [exact translate2|]. split; [exact env2|]. split; [exact command2|]. split; [exact fits2|]. split; [exact run2|]. split; [exact solid2|exact sane2]. Qed.

(** ** C42 *)
Example C42_unroll_case : unroll_if if1 = [(test1, [setV "uniform"]); (test2, [setV "randint"]); (XBool true, [setV "randint"; SNone])] /\
  unroll_ifexp [XName "V"] (XIf test1 (dist_call "uniform") (XIf test2 (dist_call "choice") (dist_call "randint"))) =
    SIf test1 [setV "uniform"] [SIf test2 [setV "choice"] [setV "randint"]] /\
  (fun e : exprQ => match e with XBool b => b | XCmp (XName "Y") _ => true | _ => false end) (XBool true) = true.
Proof. split; [reflexivity|]. split; reflexivity. Qed.

(** ** C43 *)
Definition halves : exprQ := XSeq [XNumQ (1#2); XNumQ (1#4)].
Definition at_x (r : R) (s : string) : asg := fun y => if String.eqb y "X" then FNum r else FStr s.
Definition ev_halves : tr QS := EBasic KReal X (fr [qn (1#2); qn (1#4)]).
Ltac is_var := split; [reflexivity|]; intros ? [= <-]; eexists; reflexivity.
Example C43_in_case : cond ex_peval g1 (XCmp (XName "X") [(CIn, halves)]) /\ (exists ev, ex_peval g1 (XBin BShift (XName "X") halves) = Ok (PTr ev)) /\
  exists b, seval ex_peval g1 (XCmp (XName "X") [(CIn, halves)]) (at_x (1/2) "a") = Some (SB b).
Proof.
  split; [|split].
  - split; [is_var|]. left. split; [discriminate|]. repeat constructor; eexists; reflexivity.
  - eexists. reflexivity.
  - eexists. reflexivity.
Qed.
Example C43_not_in_case : cond ex_peval g1 (XCmp (XName "X") [(CNotIn, halves)]) /\ (exists ev, ex_peval g1 (XUn UInv (XBin BShift (XName "X") halves)) = Ok (PTr ev)) /\
  exists b, seval ex_peval g1 (XCmp (XName "X") [(CNotIn, halves)]) (at_x (1/3) "a") = Some (SB b).
Proof.
  split; [|split].
  - split; [is_var|]. left. split; [discriminate|]. repeat constructor; eexists; reflexivity.
  - eexists. reflexivity.
  - eexists. reflexivity.
Qed.
Example C43_eq_case : cond ex_peval g1 test2 /\ ex_peval g1 (XBin BShift (XName "Y") (XSet [XText "a"])) = Ok (PTr yina) /\ exists b, seval ex_peval g1 test2 (at_x 0 "b") = Some (SB b).
Proof. split; [exact cond2|]. split; [reflexivity|]. eexists. reflexivity. Qed.
Example C43_ne_case : let e : exprQ := XCmp (XName "X") [(CNe, XName "h")] in cond ex_peval g1 e /\ (exists ev, ex_peval g1 (XUn UInv (XBin BShift (XName "X") (XSet [XName "h"]))) = Ok (PTr ev)) /\
  exists b, seval ex_peval g1 e (at_x 0 "b") = Some (SB b).
Proof.
  split; [|split].
  - split; [is_var|]. split; [split; [reflexivity|discriminate]|]. left. eexists. reflexivity.
  - eexists. reflexivity.
  - eexists. reflexivity.
Qed.

(** ** What is not so *)
(** 0 < X < 1 becomes X < 1: the first comparison is an object, hence true, and Python drops it. *)
Definition chain : exprQ := XCmp (XNumQ 0) [(CLt, XName "X"); (CLt, XNumQ 1)].
Definition xlt (q : Q) : tr QS := EBasic KInt X (iv NInf (qn q) true true).
Lemma holds_xlt : forall q r s, r < Q2R q -> holds (xlt q) (at_x r s).
Proof. intros q r s H. unfold xlt. rewrite holds_basic. exists (FNum r). split; [reflexivity|]. split; [exact Logic.I|]. cbn. repeat split; auto. Qed.
Lemma bool_of_no : forall P : Prop, ~ P -> bool_of P = false.
Proof. intros P H. unfold bool_of. destruct (dec P); tauto. Qed.
Lemma bool_of_yes : forall P : Prop, P -> bool_of P = true.
Proof. intros P H. unfold bool_of. destruct (dec P); tauto. Qed.
Theorem C43_chain_refuted : exists (g : envQ) (e : exprQ) ev w, ex_peval g (rewrite e) = Ok (PTr ev) /\ gev ev /\ seval ex_peval g e w = Some (SB false) /\ holds ev w.
Proof.
  exists g1, chain, (xlt 1), (at_x (-1) "a"). split; [reflexivity|]. split; [apply (good_int X NInf (qn 1) true true); exact Logic.I || reflexivity|]. split.
  - change (seval ex_peval g1 chain (at_x (-1) "a")) with (Some (SB (bool_of (Q2R 0 < -1) && (bool_of (-1 < Q2R 1) && true)))). rewrite bool_of_no; [reflexivity|]. unfold Q2R; cbn; lra.
  - apply holds_xlt. unfold Q2R; cbn; lra.
Qed.
(** X > 0 and X < 1 becomes X < 1 for the same reason; & is as it should be *)
Theorem C43_and_refuted : exists (g : envQ) (a b : exprQ) ev w, cond ex_peval g a /\ cond ex_peval g b /\
  ex_peval g (rewrite (XBoolOp true [a; b])) = Ok (PTr ev) /\ seval ex_peval g (XBoolOp true [a; b]) w = Some (SB false) /\ holds ev w.
Proof.
  exists g1, (XCmp (XName "X") [(CGt, XNumQ 0)]), (XCmp (XName "X") [(CLt, XNumQ 1)]), (xlt 1), (at_x (-1) "a"). split; [split; [is_var|exact Logic.I]|]. split; [split; [is_var|exact Logic.I]|]. split; [reflexivity|]. split.
  - match goal with |- ?u = _ => change u with (Some (SB ((bool_of (-1 > Q2R 0) && true) && ((bool_of (-1 < Q2R 1) && true) && true)))) end. rewrite bool_of_no; [reflexivity|]. unfold Q2R; cbn; lra.
  - apply holds_xlt. unfold Q2R; cbn; lra.
Qed.
(** X < 0 or X < 1 becomes X < 0 *)
Theorem C43_or_refuted : exists (g : envQ) (a b : exprQ) ev w, cond ex_peval g a /\ cond ex_peval g b /\
  ex_peval g (rewrite (XBoolOp false [a; b])) = Ok (PTr ev) /\ seval ex_peval g (XBoolOp false [a; b]) w = Some (SB true) /\ ~ holds ev w.
Proof.
  exists g1, (XCmp (XName "X") [(CLt, XNumQ 0)]), (XCmp (XName "X") [(CLt, XNumQ 1)]), (xlt 0), (at_x (1/2) "a"). split; [split; [is_var|exact Logic.I]|]. split; [split; [is_var|exact Logic.I]|]. split; [reflexivity|]. split.
  - match goal with |- ?u = _ => change u with (Some (SB ((bool_of (1/2 < Q2R 0) && true) || ((bool_of (1/2 < Q2R 1) && true) || false)))) end. rewrite (bool_of_yes (1/2 < Q2R 1)); [now rewrite orb_true_r|]. unfold Q2R; cbn; lra.
  - unfold xlt. rewrite holds_basic. intros (v & [= <-] & _ & K). cbn in K. destruct K as (_ & K). revert K. unfold Q2R; cbn; lra.
Qed.
(** not (X < 1) is False *)
Theorem C43_not_refuted : exists (g : envQ) (a : exprQ) w, cond ex_peval g a /\ ex_peval g (rewrite (XUn UNot a)) = Ok (PBool false) /\ seval ex_peval g (XUn UNot a) w = Some (SB true).
Proof.
  exists g1, (XCmp (XName "X") [(CLt, XNumQ 1)]), (at_x 2 "a"). split; [split; [is_var|exact Logic.I]|]. split; [reflexivity|].
  match goal with |- ?u = _ => change u with (Some (SB (negb (bool_of (2 < Q2R 1) && true)))) end. rewrite bool_of_no; [reflexivity|]. unfold Q2R; cbn; lra.
Qed.
(** 2 - X < 1 becomes X - 2 < 1 *)
Theorem C43_rsub_refuted : exists (g : envQ) (e : exprQ) ev w, ex_peval g (rewrite e) = Ok (PTr ev) /\ seval ex_peval g e w = Some (SB false) /\ holds ev w.
Proof.
  exists g1, (XCmp (XBin BSub (XNumQ 2) (XName "X")) [(CLt, XNumQ 1)]). eexists. exists (at_x 0 "a"). split; [reflexivity|]. split.
  - match goal with |- ?u = _ => change u with (Some (SB (bool_of (Q2R 2 - 0 < Q2R 1) && true))) end. rewrite bool_of_no; [reflexivity|]. unfold Q2R; cbn; lra.
  - rewrite holds_basic. eexists. split; [reflexivity|]. split; [exact Logic.I|]. cbn. repeat split; auto. unfold Q2R; cbn; lra.
Qed.
(** A branch with nothing but pass has no place in the arguments of IfElse, and the ones after it move up. *)
Definition got {A} (d : A) (r : res A) : A := match r with Ok a => a | Raise _ => d end.
Definition tr3 (u : exprQ -> exprQ -> string) (p : list stmtQ) := got (vs_init, []) (translate ex_isdist u 9 p).
Definition nm3 (u : exprQ -> exprQ -> string) (p : list stmtQ) := got [] (module_env ioQ po 9 ex_call (fst (tr3 u p))).
Definition prog3 : list stmtQ := [SAssign [XName "X"] (dist_call "uniform"); SIf (XCmp (XName "X") [(CLt, XNumQ (1#2))]) [SCall "condition" [XCmp (XName "X") [(CLt, XNumQ (1#4))]]] [SNone]].
Theorem C47_pass_refuted : exists p st is g, ex_translate 9 p = Ok (st, is) /\ module_env ioQ po 9 ex_call st = Ok g /\ ex_command g is = Raise AssertionError /\ ~ All solid p.
Proof. exists prog3, (fst (tr3 ex_unparse prog3)), (snd (tr3 ex_unparse prog3)), (nm3 ex_unparse prog3). split; [reflexivity|]. split; [reflexivity|]. split; [reflexivity|]. intros (_ & ((_ & _ & [K|K] & _) & _)); [discriminate K|exact K]. Qed.
(** The constants are kept by their text: a second a = 1 is put where the first one was. *)
Definition number_text (q : Q) : string := (NilEmpty.string_of_int (Z.to_int (Qnum q)) ++ "/" ++ NilEmpty.string_of_int (Z.to_int (Zpos (Qden q))))%string.
Definition ex_text (t v : exprQ) : string := match t, v with XName x, XNum q => (x ++ "=" ++ number_text q)%string | XName x, _ => x | _, _ => ""%string end.
Definition is_a (q : Q) : stmtQ := SAssign [XName "a"] (XNumQ q).
Definition prog4 : list stmtQ := [is_a 1; is_a 2; is_a 1; SAssign [XName "X"] (dist_call "uniform")].
Theorem C47_constants_refuted : exists p st is g g0, translate ex_isdist ex_text 9 p = Ok (st, is) /\ module_env ioQ po 9 ex_call st = Ok g /\ named ex_peval ex_isdist (fun _ => false) p [] = Ok g0 /\
  lookup g "a" = Ok (PNumQ 2) /\ lookup g0 "a" = Ok (PNumQ 1).
Proof. exists prog4, (fst (tr3 ex_text prog4)), (snd (tr3 ex_text prog4)), (nm3 ex_text prog4), (got [] (named ex_peval ex_isdist (fun _ => false) prog4 [])). split; [reflexivity|]. split; [reflexivity|]. split; [reflexivity|]. split; reflexivity. Qed.
(** The size of an array is evaluated after all constants. *)
Definition prog5 : list stmtQ := [is_a 1; SAssign [XName "Y"] (XCall "array" [XName "a"] []); is_a 2; SAssign [XItem (XName "Y") (XNumQ 1)] (dist_call "uniform")].
Theorem C47_array_size_refuted : exists p st is g g0, translate ex_isdist ex_text 9 p = Ok (st, is) /\ module_env ioQ po 9 ex_call st = Ok g /\
  named ex_peval ex_isdist (fun _ => false) (firstn 1 p) [] = Ok g0 /\ nth_error p 1 = Some (SAssign [XName "Y"] (XCall "array" [XName "a"] [])) /\
  ex_peval g0 (XName "a") = Ok (PNumQ 1) /\ lookup g "Y" = Ok (IdArray "Y" 2).
Proof. exists prog5, (fst (tr3 ex_text prog5)), (snd (tr3 ex_text prog5)), (nm3 ex_text prog5), (got [] (named ex_peval ex_isdist (fun _ => false) (firstn 1 prog5) [])). split; [reflexivity|]. split; [reflexivity|]. split; [reflexivity|]. split; [reflexivity|]. split; reflexivity. Qed.

(** X[-1] of the array X of three variables is its last one *)
Example C47_index_case : py_item (N:=QS) (IdArray "X" 3) (PNum (nint (n:=QS) (-1))) = Ok (PTr (TId "X[2]")) /\ py_item (N:=QS) (IdArray "X" 3) (PNum (nint (n:=QS) 3)) = Raise IndexError.
Proof. split; reflexivity. Qed.

Definition all_source_properties := (@C47_index, C47_index_case, @C42_unroll_if, @C42_unroll_ifexp, @C43_condition, @C43_in, @C43_not_in, @C43_eq, @C43_ne, @C47_translation, @C47_names, @C47_program,
  C43_chain_refuted, C43_and_refuted, C43_or_refuted, C43_not_refuted, C43_rsub_refuted, C47_pass_refuted, C47_constants_refuted, C47_array_size_refuted, C47_program_case, C47_switch_case).
Print Assumptions all_source_properties.
