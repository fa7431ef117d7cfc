(** C98: how accurately the cut calculators compute in binary64. *)
From Coq Require Import ZArith Reals Lra Lia.
From Flocq Require Import Core IEEE754.BinarySingleNaN.
From Verif Require Import Num Res CuttingPlane EllCalc FloatLemmas Replay AccSpec AccProofs.
Local Open Scope R_scope.

(** A central cut: all three numbers to within two roundings of the exact ones, the
    step tau/(n+1), the weight 2/(n+1) and the factor n^2/(n^2-1). *)
Theorem C98_central (lm : Libm) n (t rho sigma delta : f64) :
  (2 <= n)%nat -> (Z.of_nat n <= 2 ^ 26)%Z -> moderate t ->
  calc_central_cut (N := FNum lm) (calc_new n) t = (Success, (rho, sigma, delta)) ->
  close 2 rho (sqrt (B2R t) / (INR n + 1)) /\ close 2 sigma (2 / (INR n + 1)) /\ close 1 delta (INR n * INR n / (INR n * INR n - 1)).
Proof. exact (fun Hn Hz H => central_close lm n Hn Hz t (proj1 H) (proj2 H) rho sigma delta). Qed.
Print Assumptions C98_central.

(** A bias cut with offset beta >= 0: step and weight to within 3 and 7 roundings,
    the factor delta - which vanishes when the cut touches the ellipsoid - to within
    24 units of 2^-53. *)
Theorem C98_bias (lm : Libm) n (b t rho sigma delta : f64) :
  (2 <= n)%nat -> (Z.of_nat n <= 2 ^ 26)%Z -> moderate t -> moderate_or_zero b ->
  calc_bias_cut (N := FNum lm) (calc_new n) b t = (Success, (rho, sigma, delta)) ->
  let tau := sqrt (B2R t) in let beta := B2R b in
  close 3 rho ((tau + INR n * beta) / (INR n + 1)) /\
  close 7 sigma (2 * ((tau + INR n * beta) / (INR n + 1)) / (tau + beta)) /\
  is_finite delta = true /\
  Rabs (B2R delta - INR n * INR n / (INR n * INR n - 1) * (1 - beta / tau * (beta / tau))) <= 24 * bpow radix2 (-53).
Proof. exact (fun Hn Hz H K => bias_close lm n Hn Hz t (proj1 H) (proj2 H) b (proj1 K) (proj2 K) rho sigma delta). Qed.
Print Assumptions C98_bias.

(** The same for the routine behind [update_q]. *)
Theorem C98_bias_q (lm : Libm) n (b t rho sigma delta : f64) :
  (2 <= n)%nat -> (Z.of_nat n <= 2 ^ 26)%Z -> moderate t -> moderate_or_zero b ->
  calc_bias_cut_q (N := FNum lm) (calc_new n) b t = (Success, (rho, sigma, delta)) ->
  let tau := sqrt (B2R t) in let beta := B2R b in
  close 3 rho ((tau + INR n * beta) / (INR n + 1)) /\
  close 7 sigma (2 * ((tau + INR n * beta) / (INR n + 1)) / (tau + beta)) /\
  is_finite delta = true /\
  Rabs (B2R delta - INR n * INR n / (INR n * INR n - 1) * (1 - beta / tau * (beta / tau))) <= 24 * bpow radix2 (-53).
Proof. exact (fun Hn Hz H K => bias_q_close lm n Hn Hz t (proj1 H) (proj2 H) b (proj1 K) (proj2 K) rho sigma delta). Qed.
Print Assumptions C98_bias_q.

(** A pair of parallel cuts, the first through the centre and the second inside the
    ellipsoid. *)
Theorem C98_parallel_central (lm : Libm) n (b t rho sigma delta : f64) :
  (2 <= n)%nat -> (Z.of_nat n <= 2 ^ 26)%Z -> moderate t -> moderate b -> Bleb t (fmul b b) = false ->
  calc_parallel_central_cut (N := FNum lm) (calc_new n) b t = (Success, (rho, sigma, delta)) ->
  let A := B2R b * B2R b / B2R t in let H := INR n / 2 * A in let root := H + sqrt (1 - A + H * H) in
  close 32 rho (B2R b / (root + 1)) /\ close 32 sigma (2 / (root + 1)) /\ close 152 delta (root / (root - 1 / INR n)).
Proof. exact (fun Hn Hz H K Hin => pair_close lm n Hn Hz t (proj1 H) (proj2 H) b (proj1 K) (proj2 K) Hin rho sigma delta). Qed.
Print Assumptions C98_parallel_central.

(** The decision to reject: never wrong, for all finite numbers and any calculator. *)
Theorem C98_rejects (lm : Libm) (e : EllCalc (FNum lm)) (b t : f64) x :
  is_finite b = true -> is_finite t = true ->
  calc_bias_cut (N := FNum lm) e b t = (NoSoln, x) -> B2R t < B2R b * B2R b.
Proof. exact (bias_nosoln lm e b t x). Qed.
Print Assumptions C98_rejects.
Theorem C98_rejects_q (lm : Libm) (e : EllCalc (FNum lm)) (b t : f64) x :
  is_finite b = true -> is_finite t = true -> 0 <= B2R t ->
  calc_bias_cut_q (N := FNum lm) e b t = (NoSoln, x) -> sqrt (B2R t) < B2R b.
Proof. exact (bias_q_nosoln lm e b t x). Qed.
Print Assumptions C98_rejects_q.
(** ... and the decision to accept is off by at most one rounding. *)
Theorem C98_accepts (lm : Libm) (e : EllCalc (FNum lm)) (b t : f64) x :
  moderate t -> moderate_or_zero b ->
  calc_bias_cut (N := FNum lm) e b t = (Success, x) -> B2R b * B2R b * (1 - bpow radix2 (-53)) <= B2R t.
Proof. exact (fun H K => bias_accepts lm e b t x (proj1 K) (proj1 H) (proj2 H) (proj2 K)). Qed.
Print Assumptions C98_accepts.

(** A case: n = 2, beta = 1, tsq = 4. *)
Example C98_case : exists rho sigma delta : f64,
  calc_bias_cut (N := F) (calc_new 2) (fofZ 1) (fofZ 4) = (Success, (rho, sigma, delta)) /\
  close 3 rho (4 / 3) /\ close 7 sigma (8 / 9) /\ Rabs (B2R delta - 1) <= 24 * bpow radix2 (-53).
Proof.
  assert (S : fst (calc_bias_cut (N := F) (calc_new 2) (fofZ 1) (fofZ 4)) = Success) by (vm_compute; reflexivity).
  destruct (calc_bias_cut (N := F) (calc_new 2) (fofZ 1) (fofZ 4)) as [st [[rho sigma] delta]] eqn:E. cbn [fst] in S. subst st.
  exists rho, sigma, delta. split; [reflexivity|].
  destruct (fofZ_small 1 ltac:(lia)) as [V1 F1]. destruct (fofZ_small 4 ltac:(lia)) as [V4 F4].
  assert (L1 : bpow radix2 (-100) <= 1) by (apply (bpow_le radix2 (-100) 0); lia).
  assert (L2 : 4 <= bpow radix2 100) by (apply (bpow_le radix2 2 100); lia).
  assert (Mt : moderate (fofZ 4)) by (split; [exact F4|rewrite V4; lra]).
  assert (Mb : moderate_or_zero (fofZ 1)) by (split; [exact F1|right; rewrite V1; lra]).
  pose proof (C98_bias lm0 2 (fofZ 1) (fofZ 4) rho sigma delta (le_n 2) ltac:(cbn; lia) Mt Mb E) as (H1 & H2 & _ & H3). rewrite V1, V4 in *.
  assert (sqrt 4 = 2) as S4 by (replace 4 with (2 * 2) by ring; apply sqrt_square; lra). rewrite S4 in *. change (INR 2) with 2 in *.
  replace ((2 + 2 * 1) / (2 + 1)) with (4 / 3) in * by field. replace (2 * (4 / 3) / (2 + 1)) with (8 / 9) in H2 by field.
  replace (2 * 2 / (2 * 2 - 1) * (1 - 1 / 2 * (1 / 2))) with 1 in H3 by field. auto.
Qed.
(** The same numbers meet the hypotheses of the parallel theorem. *)
Example C98_case_parallel : exists rho sigma delta : f64,
  Bleb (fofZ 4) (fmul (fofZ 1) (fofZ 1)) = false /\
  calc_parallel_central_cut (N := F) (calc_new 2) (fofZ 1) (fofZ 4) = (Success, (rho, sigma, delta)) /\
  close 32 rho (1 / (1 / 4 + sqrt (13 / 16) + 1)).
Proof.
  assert (S : fst (calc_parallel_central_cut (N := F) (calc_new 2) (fofZ 1) (fofZ 4)) = Success) by (vm_compute; reflexivity).
  assert (L : Bleb (fofZ 4) (fmul (fofZ 1) (fofZ 1)) = false) by (vm_compute; reflexivity).
  destruct (calc_parallel_central_cut (N := F) (calc_new 2) (fofZ 1) (fofZ 4)) as [st [[rho sigma] delta]] eqn:E. cbn [fst] in S. subst st.
  exists rho, sigma, delta. split; [exact L|]. split; [reflexivity|].
  destruct (fofZ_small 1 ltac:(lia)) as [V1 F1]. destruct (fofZ_small 4 ltac:(lia)) as [V4 F4].
  assert (L1 : bpow radix2 (-100) <= 1) by (apply (bpow_le radix2 (-100) 0); lia).
  assert (L2 : 4 <= bpow radix2 100) by (apply (bpow_le radix2 2 100); lia).
  assert (Mt : moderate (fofZ 4)) by (split; [exact F4|rewrite V4; lra]).
  assert (Mb : moderate (fofZ 1)) by (split; [exact F1|rewrite V1; lra]).
  pose proof (C98_parallel_central lm0 2 (fofZ 1) (fofZ 4) rho sigma delta (le_n 2) ltac:(cbn; lia) Mt Mb L E) as (H1 & _ & _). rewrite V1, V4 in H1. change (INR 2) with 2 in H1.
  replace (2 / 2 * (1 * 1 / 4)) with (1 / 4) in H1 by field. replace (1 - 1 * 1 / 4 + 1 / 4 * (1 / 4)) with (13 / 16) in H1 by field. exact H1.
Qed.
