(** A case for C55 with Conditions on functions of variables. *)
From Coq Require Import List Bool String Reals Lra Lia ZArith QArith Qabs Qreals FunctionalExtensionality.
From Verif Require Import Base Num Sets SetSpec SetIv SetProofs SetOr SetOps SetAlg SetBuilt
  Poly Trans TransSpec TransFacts PolyProofs InvProofs InvMain EvProofs ArithProofs PolyEx
  Dnf DnfSpec DnfProofs DnfUnion Logs Spe SpeSpec SpeFacts SpeRect LeafProofs LeafEvents LeafCond SpeCons LeafGiven MemoProofs PropTrans NormSorts LogprobProofs LogprobTop SpeEq SimplifyProofs CondTypes CondProofs CondTop PropSpe Uniform Instances SpeEx
  SpeOps OpsProofs BuildProofs TransformProofs PropCons ConsEx Same Prog ProgSpec ProgEvents ProgProofs PropProg ProgEx TotalSets PropTotal TotalUnion TotalGrid PropCondTotal ReturnSpec SwitchTotal ReturnProofs PropReturns ReturnEx
  CondShape TransformTotal TransformShape CompileSpec CompileProofs PropCompile CompileEx SolveSpec AskSpec LinEx AskEx FunSpec FunTotal PropFun FunEx SessionEx PropSessionFun SessionFunEx CompileFunSpec PropCompileFun TotalSpec TotalEx CondTotalEx.
Import ListNotations.
Local Open Scope R_scope.
Local Open Scope string_scope.

(** X ~ uniform; Y ~ choice;
    if Y == 'a': condition (X - 1/2 <= 0 and X - 1/2 > -1/4 and 1 + 2*X > 9/8 and X in [0, 3/8) and Y == 'a');
    asked afterwards: |X - 1/2| > 7/32 *)
Definition bs_f : list (option (tr QS) * cmdQ) := [(Some yina, Condition mev); (None, Skip)].
Definition prog_f : cmdQ := Sequence [samp "X" dU; samp "Y" dY; IfElse bs_f].
Lemma yina_any : direct exnom any none yina.
Proof. split; [exact gev_yina|]. constructor; [|constructor]. exists KNom, "Y", (fn ["a"]). split; [reflexivity|]. right. exact Logic.I. Qed.
Lemma x_any : plain_leaf elaw exnom dZ any "X" (lu "X").
Proof. split; [now apply sample_u|]. split; [reflexivity|]. split; [left; reflexivity|]. split; [split; auto; discriminate|discriminate]. Qed.
Lemma y_any : plain_leaf elaw exnom dZ any "Y" y1.
Proof. split; [|split; [reflexivity|split; [left; reflexivity|repeat split]]]. split; [apply y_wf; easy|]. split; [cbn; auto|]. intros z. cbn. intuition. Qed.
Lemma mev_regular : forall a, regular true mev a.
Proof. intros a. cbn. repeat split; intros; try discriminate; now left. Qed.
Lemma mev_xy : forall x, In x (symbols mev) -> x = "X" \/ x = "Y".
Proof. cbn. intuition. Qed.
Definition mev_runs : bool := match fresh (condition ioQ so_id pl 9 (ids_of pxy) exhash pxy mev) with Ok _ => true | _ => false end.
Lemma mev_pos : forall w, 0 < den elaw pxy (ind (holds mev)) w.
Proof.
  assert (K : mev_runs = true) by (vm_compute; reflexivity). unfold mev_runs in K. destruct (fresh _) as [t|] eqn:E; [|discriminate K].
  destruct (fresh_condition ioQ so_id pl 9 elaw elaw_eq (ids_of pxy) exhash exnom no_env pxy mev t pxy_wf pxy_typed (ids_distinct pxy)) as (_ & _ & _ & P & _); auto.
  apply (posed_conditionable pl elaw exnom any none no_env); [exact pxy_wf|exact (posed0 mev mev_posed)| |intros x Hx; destruct (mev_xy x Hx) as [-> | ->]; cbn; auto].
  intros w. rewrite (law_ext (I:=fun g => SpeSpec.den elaw pxy g w) _ (fun _ => 0)); [apply (law_const (den_kernel elaw pxy pxy_wf w))|]. intros a. apply ind_false. intros H. apply H, mev_regular.
Qed.
Lemma mev_yina : forall a, holds mev a -> holds yina a.
Proof. intros a H. unfold mev in H. rewrite holds_and in H. apply H. cbn. auto 9. Qed.
Lemma mev_chance : chance (restrict (den elaw pxy) (holds yina)) (holds mev).
Proof.
  exists w0. unfold restrict.
  assert (E : (fun a => ind (holds mev) a * ind (holds yina) a) = ind (holds mev)).
  { extensionality a. unfold ind. destruct (dec (holds mev a)) as [H|H]; [|ring]. destruct (dec (holds yina a)) as [H'|H']; [ring|]. exfalso. apply H'. now apply mev_yina. }
  rewrite E. pose proof (mev_pos w0) as P.
  assert (L : den elaw pxy (ind (holds mev)) w0 <= den elaw pxy (ind (holds yina)) w0).
  { apply (law_mono (den_kernel elaw pxy pxy_wf w0)); auto with bnd. intros a. unfold ind. destruct (dec (holds mev a)) as [H|], (dec (holds yina a)) as [|H']; try lra. exfalso. apply H'. now apply mev_yina. }
  intros K. apply Rmult_integral in K. destruct K as [K|K]; [lra|]. assert (0 < / den elaw pxy (ind (holds yina)) w0) by (apply Rinv_0_lt_compat; lra). lra.
Qed.
Lemma prog_f_admits : admits pl elaw exnom dZ any prog_f (fun _ => False) start None V2 None.
Proof.
  assert (Z : exists z, V2 z) by (exists "X"; left; reflexivity).
  apply admits_cons with (V' := V1) (m' := Some (lu "X")); [apply admits_plain; apply (compiles_first elaw exnom dZ any "X" dU (lu "X")); auto; [exact x_any|intros z; unfold V1; tauto]|].
  apply admits_cons with (V' := V2) (m' := None); [apply admits_plain; apply (compiles_sample elaw exnom dZ any "Y" dY y1); auto; [exists "X"; reflexivity|intros E; discriminate E|exact y_any|intros z; reflexivity]|].
  apply admits_cons with (V' := V2) (m' := None); [|apply admits_plain; constructor].
  rewrite kernel_xy. apply admits_if with (es := [yina]); auto.
  - split; [discriminate|right; reflexivity].
  - intros e [<-|[]]. split; [split; [exact yina_any|intros x [<-|[]]; split; [right|]; reflexivity]|]. constructor; [exact Logic.I|constructor].
  - apply (else_covers pxy); [exact pxy_wf|cbn; auto].
  - intros P c _ _. left. exact two2.
  - intros P c Hc _. destruct Hc as [E|[E|[]]]; injection E as <- <-.
    + cbn [fst test]. apply admits_condition; [exact two2|exact (posed0 mev mev_posed)|cbn; auto 9|repeat constructor| | |exact mev_chance].
      * intros x Hx. destruct (mev_xy x Hx) as [-> | ->]; (split; [|reflexivity]); [left|right]; reflexivity.
      * intros w. unfold restrict. rewrite (law_ext (I:=fun g => SpeSpec.den elaw pxy g w) _ (fun _ => 0)); [rewrite (law_const (den_kernel elaw pxy pxy_wf w)); unfold Rdiv; ring|]. intros a. rewrite ind_false; [ring|]. intros H. apply H, mev_regular.
    + apply admits_plain. constructor.
Qed.
Notation run_f := (interpret ioQ so_id pl 20 exhash ids_of true).
(** the probability: 3/4 * 9/16 for Y == 'b', and 1/4 * 1/4 for Y == 'a' *)
Definition prog_f_answer : bool := match run_f prog_f None with Ok (Some s) => match ask9 s tgt7 with Ok p => Qeq_bool p (31#64)%Q | _ => false end | _ => false end.
Example C55_functions_case : admits pl elaw exnom dZ any prog_f (fun _ => False) start None V2 None /\ two (base dZ V2) /\ posed pl exnom any none tgt7 /\ (forall x, In x (symbols tgt7) -> base dZ V2 x) /\
  sure (meaning elaw prog_f start) (regular true tgt7) /\ prog_f_answer = true.
Proof.
  split; [exact prog_f_admits|]. split; [exact two2|]. split; [exact tgt7_posed|]. split; [intros x [<-|[]]; split; [left|]; reflexivity|]. split; [|vm_compute; reflexivity].
  destruct (C55_functions_partial ioQ so_id pl elaw elaw_eq exhash ids_of true exnom dZ any ids_distinct (or_introl eq_refl) prog_f V2 None prog_f_admits) as (k & Hk). destruct (Hk k (le_n _)) as (o & _ & So).
  assert (R : forall a, regular true tgt7 a) by (intros a; cbn; repeat split; intros; discriminate). intros w.
  assert (E0 : ind (fun a => ~ regular true tgt7 a) = fun _ => 0) by (extensionality a; apply ind_false; intros H; apply H, R).
  assert (Sc : simple (fun _ : asg => 0)) by constructor.
  destruct o as [s|]; [|destruct So as (Nv & _); destruct (Nv "X"); left; reflexivity]. destruct So as (Ws & _ & Dk). rewrite E0, <- Dk by exact Sc. apply (law_const (den_kernel elaw s Ws w)).
Qed.

Definition all_compile_fun_properties := (@C55_functions_partial, @C55_function_answers_partial).
Print Assumptions all_compile_fun_properties.
