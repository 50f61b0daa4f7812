From Verif.Common Require Import Prelude.
From Coq Require Import Reals ZArith Lra Field FunctionalExtensionality.
From Coquelicot Require Import Hierarchy Complex.
From Verif.Vertex Require Import Model Spec Algebra.
From Verif.External Require Import Model Spec Proofs Weyl Spinors Rates.
Local Open Scope R_scope.

Definition space (i : ix) : bool := match i with I3 => false | _ => true end.
Lemma transverse_sum p m : clear_of_axis p -> 0 < pP p -> forall i j,
  (wv m p 1 i * Cconj (wv m p 1 j) + wv m p (-1) i * Cconj (wv m p (-1) j))%C =
  (if andb (space i) (space j) then Identity i j - P4 p i * P4 p j * RtoC (/ (pP p * pP p)) else RtoC 0)%C.
Proof.
  intros [G|(X & Y & Z)] Hp.
  - destruct (generic p G) as (Hp' & Hz & E1 & E2 & E3). pose proof (pP_sq p) as Q.
    unfold wv, weyl_vector. rewrite E1, E2, E3. clear E1 E2 E3.
    unfold zz, zb. unfold tiny in *. set (P := pP p) in *. clearbody P.
    destruct p as [x y z e]. unfold P4. cbn [px py pz en] in *.
    assert (Sx : x * x = P * P - y * y - z * z) by lra. clear Q G Hp'.
    unfold Rdiv. rewrite ?Rmult_1_l. rewrite Rinv_mult.
    assert (Ru : / P * P = 1) by (field; lra). assert (Rw : / (P + z) * z = 1 - / (P + z) * P) by (field; lra).
    pose proof twice_half as Hr. pose proof ii as Hi.
    set (u := / P) in *. set (w := / (P + z)) in *. set (r := / sqrt 2) in *. clearbody u w r.
    toC Sx; toC Ru; toC Rw; toC Hr.
    intros [] []; unfold Identity, four; cbn [Z.eqb Pos.eqb px py pz en space andb]; push; ring [Sx Ru Rw Hr Hi].
  - destruct (axis p X Y Z) as (c & C2 & Pc & E2 & _).
    unfold wv, weyl_vector. rewrite E2, Pc. rewrite Pc in Hp. set (i := invP p). clearbody i. set (f := ff p). clearbody f.
    destruct p as [x y z e]. cbn [px py pz en] in *. subst x y.
    unfold P4, zz, zb. cbn [px py pz en] in *.
    assert (Rz : z * / (c * z * (c * z)) * z = 1). { assert (z <> 0) by nra. assert (c <> 0) by nra. replace (c * z * (c * z)) with (c * c * (z * z)) by ring. rewrite C2. field. lra. }
    unfold Rdiv. rewrite ?Rmult_1_l. pose proof twice_half as Hr. pose proof ii as Hi.
    set (r := / sqrt 2) in *. set (q := / (c * z * (c * z))) in *. clearbody r q. toC Hr; toC C2; toC Rz.
    intros [] []; unfold Identity, four; cbn [Z.eqb Pos.eqb px py pz en space andb]; push; ring [C2 Rz Hr Hi].
Qed.
Lemma photon_rate p m st : light_like p -> clear_of_axis p -> ip (P4 p) st = RtoC 0 ->
  exists t, total_rate (spinFactor Weyl 2 22 m p st) (polarisations 2 22) = Some t /\ RtoC t = (- ip (cbar st) st)%C.
Proof.
  intros (He & Hl) Ca Ht. assert (EP : pP p = en p). { unfold pP. rewrite <- Hl. replace (en p * en p) with (Rsqr (en p)) by reflexivity. apply sqrt_Rsqr. lra. }
  pose proof (transverse_sum p m Ca) as T. rewrite EP in T. specialize (T He).
  change (polarisations 2 22) with (1 :: -1 :: nil)%Z.
  rewrite (total_ext _ (fun s => Some (dot (cbar (wv m p s)) st)) (1 :: -1 :: nil)%Z) by (intros s [<-|[<-|[]]]; reflexivity).
  eexists. split; [reflexivity|]. rewrite !RtoC_plus, !one_vector.
  transitivity (rate_vector (fun i j => (if andb (space i) (space j) then Identity i j - P4 p i * P4 p j * RtoC (/ (en p * en p)) else RtoC 0)%C) st).
  { unfold rate_vector, sum4. rewrite <- !T. ring. }
  assert (Hc : ip (P4 p) (cbar st) = RtoC 0).
  { apply (f_equal Cconj) in Ht. revert Ht. unfold ip, P4, cbar. push. intro Ht. exact Ht. }
  unfold ip, P4, cbar in Ht, Hc. destruct p as [x y z e]. cbn [px py pz en] in *.
  unfold rate_vector, sum4, sgn, Identity, P4, ip, cbar. cbn [space andb px py pz en].
  assert (Rq : e * / (e * e) * e = 1) by (field; lra). set (q := / (e * e)) in *. clearbody q. toC Rq.
  set (a := st I0) in *. set (b := st I1) in *. set (c := st I2) in *. set (d := st I3) in *.
  set (a' := Cconj a) in *. set (b' := Cconj b) in *. set (c' := Cconj c) in *. set (d' := Cconj d) in *.
  assert (A1 : (RtoC x * a + RtoC y * b + RtoC z * c = RtoC e * d)%C). { transitivity (RtoC e * d - (RtoC e * d - RtoC x * a - RtoC y * b - RtoC z * c))%C; [ring|]. rewrite Ht. ring. }
  assert (A2 : (RtoC x * a' + RtoC y * b' + RtoC z * c' = RtoC e * d')%C). { transitivity (RtoC e * d' - (RtoC e * d' - RtoC x * a' - RtoC y * b' - RtoC z * c'))%C; [ring|]. rewrite Hc. ring. }
  transitivity (a * a' + b * b' + c * c' - RtoC q * (RtoC x * a + RtoC y * b + RtoC z * c) * (RtoC x * a' + RtoC y * b' + RtoC z * c'))%C; [ring|].
  rewrite A1, A2. ring [Rq].
Qed.
