(** The closed form of the connection probability at finite alpha is the integral over the distance. *)
From Coq Require Import Arith Reals Lia Lra Psatz.
From Coquelicot Require Import Coquelicot.
From Verif Require Import Base Scaling_Thr Scaling_Inst Scaling_Total.
Local Open Scope R_scope.

Section G.
  Variables (alpha c k : R) (d : nat).
  Hypothesis Ha0 : 0 < alpha.
  Hypothesis Ha1 : alpha <> 1.
  Hypothesis Hc : 0 < c.
  Hypothesis Hk : 0 < k.
  Hypothesis Hd : (d >= 1)%nat.
  Let z := 2 ^ d * Rpower c (1 / alpha) * k.
  (** connection probability at distance r times the density of the maximum norm distance of two uniform points of the torus *)
  Definition integrand (r : R) : R := Rmin 1 (c * Rpower (k / r ^ d) alpha) * (INR d * 2 ^ d * r ^ (d - 1)).
  Let g (r : R) := (2 * r) ^ d.
  Lemma z_pos : 0 < z.
  Proof. apply Rmult_lt_0_compat; [apply Rmult_lt_0_compat; [apply pow_lt; lra|apply exp_pos]|exact Hk]. Qed.
  Lemma g_pos r : 0 < r -> 0 < g r. Proof. intros; apply pow_lt; lra. Qed.
  Lemma prob_g r : 0 < r -> c * Rpower (k / r ^ d) alpha = Rpower (z / g r) alpha.
  Proof.
    intros Hr. assert (0 < r ^ d) by now apply pow_lt. assert (0 < 2 ^ d) by (apply pow_lt; lra). assert (HC : 0 < Rpower c (1 / alpha)) by apply exp_pos.
    replace (z / g r) with (Rpower c (1 / alpha) * (k / r ^ d)); [|unfold z, g; rewrite Rpow_mult_distr; field; lra].
    rewrite <- Rpower_mult_distr; [|exact HC|now apply Rdiv_lt_0_compat]. rewrite Rpower_mult. replace (1 / alpha * alpha) with 1 by (field; lra). now rewrite Rpower_1.
  Qed.
  Lemma dens_g r : INR d * 2 ^ d * r ^ (d - 1) = INR d * 2 * (2 * r) ^ (d - 1).
  Proof. destruct d as [|m]; [lia|]. replace (S m - 1)%nat with m by lia. rewrite Rpow_mult_distr. cbn [pow]. ring. Qed.
  Lemma Rpower_1_ge x : 1 <= x -> 1 <= Rpower x alpha.
  Proof. intros H. replace 1 with (Rpower 1 alpha) at 1 by (unfold Rpower; rewrite ln_1, Rmult_0_r, exp_0; reflexivity). apply Rle_Rpower_l; lra. Qed.
  Lemma low r : 0 < r -> g r <= z -> integrand r = INR d * 2 * (2 * r) ^ (d - 1).
  Proof.
    intros Hr Hg. unfold integrand. rewrite prob_g by assumption. pose proof (g_pos r Hr). rewrite Rmin_left; [rewrite Rmult_1_l; apply dens_g|]. apply Rpower_1_ge.
    apply Rmult_le_reg_r with (g r); [assumption|]. unfold Rdiv. rewrite Rmult_assoc, Rinv_l by lra. lra.
  Qed.
  Lemma high r : 0 < r -> z <= g r -> integrand r = Rpower (z / g r) alpha * (INR d * 2 * (2 * r) ^ (d - 1)).
  Proof.
    intros Hr Hg. unfold integrand. rewrite prob_g by assumption. pose proof (g_pos r Hr). pose proof z_pos. rewrite Rmin_right; [now rewrite dens_g|].
    apply Rpower_le1; [|lra]. split; [now apply Rdiv_lt_0_compat|]. apply Rmult_le_reg_r with (g r); [assumption|]. unfold Rdiv. rewrite Rmult_assoc, Rinv_l by lra. lra.
  Qed.
  Lemma int_low a : 0 < a -> is_RInt (fun r => INR d * 2 * (2 * r) ^ (d - 1)) 0 a (g a).
  Proof.
    intros Ha. replace (g a) with (minus (g a) (g 0)).
    2:{ unfold g, minus, plus, opp; cbn. rewrite Rmult_0_r, pow_i by lia. ring. }
    apply (is_RInt_derive g).
    - intros x _. unfold g. auto_derive; [exact I|]. replace (Init.Nat.pred d) with (d - 1)%nat by lia. ring.
    - intros x _. apply continuity_pt_filterlim. apply derivable_continuous_pt. reg.
  Qed.
  Lemma g_mono a b : 0 <= a <= b -> g a <= g b.
  Proof. intros H. unfold g. apply pow_incr. lra. Qed.
  Theorem probability_integral : is_RInt integrand 0 (1 / 2) (capped (phi_gen alpha) z).
  Proof.
    assert (G1 : g (1 / 2) = 1) by (unfold g; replace (2 * (1 / 2)) with 1 by field; apply pow1). pose proof z_pos as Hz.
    unfold capped. destruct (Rge_dec z 1) as [H|H].
    - pose proof (int_low (1 / 2) ltac:(lra)) as IL. rewrite G1 in IL. eapply is_RInt_ext; [|exact IL]. intros x. rewrite Rmin_left, Rmax_right by lra. intros Hx. symmetry. apply low; [lra|]. pose proof (g_mono x (1 / 2) ltac:(lra)). lra.
    - set (r0 := Rpower z (/ INR d) / 2). assert (P : 0 < Rpower z (/ INR d)) by apply exp_pos. assert (Hr0 : 0 < r0) by (unfold r0; lra).
      assert (Gr : g r0 = z). { unfold g, r0. replace (2 * (Rpower z (/ INR d) / 2)) with (Rpower z (/ INR d)) by field. rewrite <- Rpower_pow by assumption. rewrite Rpower_mult, Rinv_l by (apply not_0_INR; lia). now apply Rpower_1. }
      assert (Hr1 : r0 < 1 / 2). { apply Rnot_le_lt. intros C. pose proof (g_mono (1 / 2) r0 ltac:(lra)). lra. }
      replace (phi_gen alpha z) with (@plus R_NormedModule z ((Rpower z alpha - z) / (1 - alpha))) by (unfold phi_gen, plus; cbn; field; split; lra).
      apply (is_RInt_Chasles (V := R_NormedModule) integrand 0 r0 (1 / 2) z ((Rpower z alpha - z) / (1 - alpha))).
      + pose proof (int_low r0 ltac:(lra)) as IL. rewrite Gr in IL. eapply is_RInt_ext; [|exact IL]. intros x. rewrite Rmin_left, Rmax_right by lra. intros Hx. symmetry. apply low; [lra|]. rewrite <- Gr. apply g_mono. lra.
      + set (F := fun r => Rpower z alpha / (1 - alpha) * exp ((1 - alpha) * ln (g r))).
        replace ((Rpower z alpha - z) / (1 - alpha)) with (minus (F (1 / 2)) (F r0)).
        2:{ unfold F, minus, plus, opp; cbn. rewrite G1, Gr, ln_1, Rmult_0_r, exp_0. fold (Rpower z (1 - alpha)).
            assert (E : Rpower z alpha * Rpower z (1 - alpha) = z) by (rewrite <- Rpower_plus; replace (alpha + (1 - alpha)) with 1 by ring; now apply Rpower_1).
            replace ((Rpower z alpha - z) / (1 - alpha)) with ((Rpower z alpha - Rpower z alpha * Rpower z (1 - alpha)) / (1 - alpha)) by now rewrite E. field. lra. }
        eapply is_RInt_ext; [|apply (is_RInt_derive F (fun r => Rpower (z / g r) alpha * (INR d * 2 * (2 * r) ^ (d - 1))))].
        * intros x. rewrite Rmin_left, Rmax_right by lra. intros Hx. symmetry. apply high; [lra|]. rewrite <- Gr. apply g_mono. lra.
        * intros x. rewrite Rmin_left, Rmax_right by lra. intros Hx. assert (Hx0 : 0 < x) by lra. pose proof (g_pos x Hx0) as Hg. unfold F. unfold g at 1. auto_derive; [exact Hg|].
          replace (Init.Nat.pred d) with (d - 1)%nat by lia. fold (g x). rewrite Rpower_div by assumption. fold (Rpower (g x) (1 - alpha)).
          assert (E : Rpower (g x) (1 - alpha) = g x / Rpower (g x) alpha). { unfold Rminus. rewrite Rpower_plus, Rpower_Ropp, Rpower_1 by assumption. reflexivity. }
          rewrite E. field. repeat split; try lra. apply Rgt_not_eq, exp_pos.
        * intros x. rewrite Rmin_left, Rmax_right by lra. intros Hx. assert (Hx0 : 0 < x) by lra. pose proof (g_pos x Hx0) as Hg.
          apply continuity_pt_filterlim. apply continuity_pt_mult; [|apply derivable_continuous_pt; reg].
          apply (continuity_pt_comp (fun r => z / g r) (fun y => Rpower y alpha)).
          -- apply continuity_pt_div; [apply continuity_pt_const; intros a b; reflexivity|unfold g; apply derivable_continuous_pt; reg|lra].
          -- apply derivable_continuous_pt. eexists. apply derivable_pt_lim_power. now apply Rdiv_lt_0_compat.
  Qed.
End G.
