(** Model of mutual_information with a memo table of the caller (src/spe.py:87-103).  Without the
    argument memo a new table is made; that case is SpeOps.v, and mi_memo_fresh in PropMIMemo.v
    shows that it is this function on an empty table. *)
From Coq Require Import List String Reals.
From Verif Require Import Base Num Sets Poly Trans Logs Spe SpeOps.
Import ListNotations.

Section MIMemo.
  Context {N : numsys} (io : iterorder N) (po : polyoracle N) (fuel : nat).
  Context {S : logsys} {D : distsys N S} (ident : spe D -> nat).
  Notation spe := (spe D).
  Notation tr := (tr N).
  (** src/spe.py:90-93: the two single probabilities do not use the table *)
  Definition mi_single (s : spe) (A B : tr) : res (lg S * lg S * lg S * lg S) :=
    let run := logprob io po fuel ident s in
    do lpA1 <- fresh_run (run A);
    do lpB1 <- fresh_run (run B);
    do lpA0 <- ldiff lzero lpA1;
    do lpB0 <- ldiff lzero lpB1;
    Ok (lpA1, lpB1, lpA0, lpB0).
  (** src/spe.py:94-103: the joint ones do *)
  Definition mi_joint (s : spe) (A B : tr) (q : lg S * lg S * lg S * lg S) : M R :=
    let run := logprob io po fuel ident s in
    let '(lpA1, lpB1, lpA0, lpB0) := q in
    mbind (mbind (lift (ev_and io A B)) run) (fun lp11 =>
    mbind (mbind (lift (do nB <- ev_not io B; ev_and io A nB)) run) (fun lp10 =>
    mbind (mbind (lift (do nA <- ev_not io A; ev_and io nA B)) run) (fun lp01 =>
    lift (do t <- lse [lp11; lp10; lp01];
          do lp00 <- ldiff lzero t;
          Ok (mi_term lp11 lpA1 lpB1 + mi_term lp10 lpA1 lpB0 + mi_term lp01 lpA0 lpB1 + mi_term lp00 lpA0 lpB0)%R)))).
  (** src/spe.py:87-103 mutual_information(A, B, memo) *)
  Definition mutual_information_memo (s : spe) (A B : tr) : M R := mbind (lift (mi_single s A B)) (mi_joint s A B).
End MIMemo.
