(** Number instances: the reals (for the geometric theorems) and the rationals (for
    running the model). *)
From Coq Require Import Reals QArith.
From Verif Require Export Num.
Import ListNotations.

Section RInst.
  Local Open Scope R_scope.

  Definition Rdiv_r (x y : R) : result R :=
    if Req_EM_T y 0 then Err NonFinite else Ok (x / y).
  Definition Rsqrt_r (x : R) : result R :=
    if Rlt_dec x 0 then Err NonFinite else Ok (sqrt x).
  (** [x ** y]: integer powers of any number (inverse powers of 0 excluded), real
      powers of non-negative numbers; otherwise nan/inf/complex. *)
  Definition Rpow_r (x y : R) : result R :=
    if Req_EM_T y (IZR (Int_part y)) then
      if Req_EM_T x 0 then
        if Rlt_dec y 0 then Err NonFinite else Ok (powerRZ x (Int_part y))
      else Ok (powerRZ x (Int_part y))
    else if Rlt_dec 0 x then Ok (Rpower x y)
    else if Req_EM_T x 0 then
      if Rlt_dec 0 y then Ok 0 else Err NonFinite
    else Err NonFinite.
  (** [arctan2(y, x)] *)
  Definition Ratan2 (y x : R) : R :=
    if Rlt_dec 0 x then atan (y / x)
    else if Rlt_dec x 0 then
      if Rle_dec 0 y then atan (y / x) + PI else atan (y / x) - PI
    else if Rlt_dec 0 y then PI / 2
    else if Rlt_dec y 0 then - (PI / 2)
    else 0.
  Definition Racos_deg (x : R) : result R :=
    if Rle_dec (-1) x then
      if Rle_dec x 1 then Ok (180 / PI * acos x) else Err NonFinite
    else Err NonFinite.
  Definition Rcircle (size i : nat) : result (R * R) :=
    match size with
    | O => Err NonFinite
    | _ => Ok (cos (2 * PI / INR size * INR i), sin (2 * PI / INR size * INR i))
    end.
  Definition Rltb (x y : R) : bool := if Rlt_dec x y then true else false.

  #[global] Instance NumR : Num R := {
    nofZ := IZR; nadd := Rplus; nsub := Rminus; nmul := Rmult; nopp := Ropp;
    ndiv := Rdiv_r; nsqrt := Rsqrt_r; npow := Rpow_r;
    natan2 := fun y x => Ok (Ratan2 y x); nacos_deg := Racos_deg;
    ncircle := Rcircle; nltb := Rltb
  }.
End RInst.

(** Rational instance: exact field operations; square roots only of perfect squares,
    no trigonometry.  Used only to run the model on examples. *)
Definition Qsqrt_r (q : Q) : result Q :=
  let q := Qred q in
  let n := Z.sqrt (Qnum q) in let d := Z.sqrt (Z.pos (Qden q)) in
  if (Z.eqb (n * n) (Qnum q) && Z.eqb (d * d) (Z.pos (Qden q)))%bool
  then Ok (Qred (n # Z.to_pos d)) else Err NonFinite.
#[global] Instance NumQ : Num Q := {
  nofZ := inject_Z; nadd := fun x y => Qred (Qplus x y); nsub := fun x y => Qred (Qminus x y);
  nmul := fun x y => Qred (Qmult x y); nopp := Qopp;
  ndiv := fun x y => if Qeq_bool y 0 then Err NonFinite else Ok (Qred (Qdiv x y));
  nsqrt := Qsqrt_r;
  npow := fun x y => let y := Qred y in
                     if Pos.eqb (Qden y) 1 then
                       if (Qeq_bool x 0 && Z.ltb (Qnum y) 0)%bool then Err NonFinite
                       else Ok (Qred (Qpower x (Qnum y)))
                     else Err NotImplemented;
  natan2 := fun _ _ => Err NotImplemented; nacos_deg := fun _ => Err NotImplemented;
  ncircle := fun _ _ => Err NotImplemented;
  nltb := fun x y => negb (Qle_bool y x)
}.
