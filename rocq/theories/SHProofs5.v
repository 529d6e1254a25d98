(* The Legendre algorithm computes the same harmonics as the recursive algorithm. *)
From Coq Require Import Reals Lra ZArith Lia List Bool Arith.
From Verif Require Import PyBase IrrepsModel IrrepsProofs ArrayModel ArrayProofs LeadModel SumR CGModel RotationModel RotationProofs TrigProofs S2Model S2Proofs S2Proofs2 EntryProofs SHModel SHProofs SHProofs2 SHProofs4.
Import ListNotations.
Open Scope R_scope.

Lemma Rltb_scale t a : 0 < t -> Rltb 0 (t * a) = Rltb 0 a /\ Rltb (t * a) 0 = Rltb a 0.
Proof. intros H. unfold Rltb. split; destruct (Rlt_dec _ _), (Rlt_dec _ _); try reflexivity; exfalso; nra. Qed.
Lemma arctan2_scale t y x : 0 < t -> arctan2 (t * y) (t * x) = arctan2 y x.
Proof.
  intros H. unfold arctan2. destruct (Rltb_scale t x H) as [-> ->]. destruct (Rltb_scale t y H) as [-> ->].
  assert (E : x <> 0 -> t * y / (t * x) = y / x) by (intros; field; split; lra). destruct (Rltb 0 x) eqn:A; [rewrite E; [reflexivity|]; unfold Rltb in A; destruct (Rlt_dec _ _); [lra|discriminate]|].
  destruct (Rltb x 0) eqn:B; [rewrite E; [reflexivity|]; unfold Rltb in B; destruct (Rlt_dec _ _); [lra|discriminate]|]. reflexivity.
Qed.
Lemma arctan2_polar y x : let r := sqrt (x * x + y * y) in r * cos (arctan2 y x) = x /\ r * sin (arctan2 y x) = y.
Proof.
  cbv zeta. set (r := sqrt (x * x + y * y)). assert (Q : 0 <= x * x + y * y) by nra. assert (R2 : r * r = x * x + y * y) by (apply sqrt_sqrt, Q). pose proof (sqrt_pos (x * x + y * y)) as Rp. fold r in Rp. destruct (Req_dec r 0) as [E|E].
  - assert (x = 0) by nra. assert (y = 0) by nra. subst. rewrite E. split; ring.
  - assert (0 < r) by lra. destruct (arctan2_spec (y / r) (x / r)) as [A B].
    + transitivity ((x * x + y * y) / (r * r)); [field; lra|]. rewrite <- R2. field. lra.
    + rewrite <- (arctan2_scale r (y / r) (x / r)) in A, B by assumption. replace (r * (y / r)) with y in A, B by (field; lra). replace (r * (x / r)) with x in A, B by (field; lra). rewrite A, B. split; field; lra.
Qed.
(* every vector in polar coordinates about the y axis *)
Lemma polar x : length x = 3%nat -> let r := vec_norm x in let y := nth 1 x 0 / (if Rltb 0 r then r else 1) in let a := arctan2 (nth 0 x 0) (nth 2 x 0) in
  0 <= r /\ -1 <= y <= 1 /\ forall i, (i < 3)%nat -> fn x i = r * vec3 (sqrt (1 - y ^ 2) * sin a) y (sqrt (1 - y ^ 2) * cos a) i.
Proof.
  intros Lx. destruct x as [|x0 [|x1 [|x2 [|]]]]; try discriminate Lx. cbv zeta. unfold vec_norm, fn. cbn [nth]. set (r := sqrt (x0 ^ 2 + x1 ^ 2 + x2 ^ 2)). assert (Q : 0 <= x0 ^ 2 + x1 ^ 2 + x2 ^ 2) by nra.
  assert (R2 : r * r = x0 ^ 2 + x1 ^ 2 + x2 ^ 2) by (apply sqrt_sqrt, Q). assert (Rp : 0 <= r) by apply sqrt_pos. split; [exact Rp|]. destruct (arctan2_polar x0 x2) as [C D]. cbv zeta in C, D. set (a := arctan2 x0 x2) in *. clearbody a.
  unfold Rltb. destruct (Rlt_dec 0 r) as [P|P].
  - assert (Y2 : (x1 / r) ^ 2 <= 1). { replace ((x1 / r) ^ 2) with (x1 ^ 2 / (r * r)) by (field; lra). rewrite R2. apply (Rmult_le_reg_r (r * r)); [nra|]. rewrite R2. unfold Rdiv. rewrite Rmult_assoc, Rinv_l by nra. nra. }
    split; [split; nra|]. assert (Sr : r * sqrt (1 - (x1 / r) ^ 2) = sqrt (x2 * x2 + x0 * x0)).
    { rewrite <- (sqrt_square r) at 1 by exact Rp. rewrite <- sqrt_mult_alt by nra. f_equal. replace (r * r * (1 - (x1 / r) ^ 2)) with (r * r - x1 ^ 2) by (field; lra). rewrite R2. ring. }
    intros [|[|[|i]]] Hi; [| | |lia]; cbn [vec3 nth].
    + rewrite <- Rmult_assoc, Sr. symmetry. exact D.
    + field. lra.
    + rewrite <- Rmult_assoc, Sr. symmetry. exact C.
  - assert (Z : r = 0) by lra. rewrite Z in R2. assert (x0 = 0) by nra. assert (x1 = 0) by nra. assert (x2 = 0) by nra. subst x0 x1 x2. split; [lra|]. intros [|[|[|i]]] Hi; [| | |lia]; cbn [vec3 nth]; rewrite Z; ring.
Qed.
Lemma legendre_entry_spec lmax x n l c : length x = 3%nat -> (l <= lmax)%nat -> (c < 2 * l + 1)%nat -> legendre_entry lmax x n l c = kappa n l * P l (fn x) c.
Proof.
  intros Lx Hl Hc. destruct (polar x Lx) as (Rp & Hy & Hx). cbv zeta in *. unfold legendre_entry. cbv zeta. set (r := vec_norm x) in *. set (y := nth 1 x 0 / _) in *. set (a := arctan2 _ _) in *.
  rewrite sh_alpha_nth by lia. replace (Z.of_nat (lmax + c - l) - Z.of_nat lmax)%Z with (Z.of_nat c - Z.of_nat l)%Z by lia. set (t := trig _ a).
  rewrite (P_ext l (fn x) (fun i => r * vec3 (sqrt (1 - y ^ 2) * sin a) y (sqrt (1 - y ^ 2) * cos a) i) Hx c Hc), P_scale. pose proof (P_sphere l y a c Hy Hc) as S1. set (p := P l _ c) in *. unfold Ylm in S1. fold t in S1. set (s := sh_beta _ _ _) in *.
  pose proof (c4_pos l) as Cp. pose proof PI_RGT_0. pose proof (pos_INR l). assert (C4 : c4 l = sqrt (2 * INR l + 1) / sqrt (4 * PI)) by (unfold c4; apply sqrt_div_alt; lra).
  assert (A : 0 < sqrt (2 * INR l + 1)) by (apply sqrt_lt_R0; lra). assert (B : 0 < sqrt (4 * PI)) by (apply sqrt_lt_R0; lra).
  destruct n; cbn [kappa].
  - transitivity (sqrt (4 * PI) * (r ^ l * (s * t))); [ring|]. rewrite <- S1, C4. field. lra.
  - transitivity (sqrt (4 * PI) / sqrt (2 * INR l + 1) * (r ^ l * (s * t))); [field; lra|]. rewrite <- S1, C4. field. lra.
  - transitivity (r ^ l * (s * t)); [ring|]. rewrite <- S1. fold (c4 l). ring.
Qed.

Lemma set_at_mid (a b : list R) z v : set_at (a ++ z :: b) (length a, v) = a ++ v :: b.
Proof.
  unfold set_at. cbn [fst snd]. rewrite firstn_app, Nat.sub_diag, firstn_all, firstn_O, app_nil_r. rewrite app_length. cbn [length]. rewrite (proj2 (Nat.ltb_lt (length a) (length a + S (length b)))) by lia. f_equal. f_equal.
  rewrite skipn_app. rewrite skipn_all2 by lia. replace (S (length a) - length a)%nat with 1%nat by lia. reflexivity.
Qed.
Lemma writes (g : nat -> R) n : forall a k s, fold_left set_at (map (fun c => (length a + (c - s), g c)%nat) (seq s n)) (a ++ repeat 0 (n + k)) = a ++ map g (seq s n) ++ repeat 0 k.
Proof.
  induction n as [|n IH]; intros a k s; [reflexivity|]. cbn [seq map fold_left Nat.add repeat]. rewrite Nat.sub_diag, Nat.add_0_r, set_at_mid.
  specialize (IH (a ++ [g s]) k (S s)). rewrite app_length in IH. cbn [length] in IH. rewrite <- !app_assoc in IH. cbn [app] in IH |- *. rewrite <- IH. f_equal. apply map_ext_in. intros c Hc. apply in_seq in Hc. f_equal. lia.
Qed.
Lemma blocks_length (g : nat -> nat -> R) L : length (flat_map (fun l => map (g l) (seq 0 (2 * l + 1))) (seq 0 L)) = (L ^ 2)%nat.
Proof. induction L as [|L IH]; [reflexivity|]. rewrite seq_S, flat_map_app, app_length, IH. cbn [flat_map Nat.add]. rewrite app_nil_r, map_length, seq_length. cbn [Nat.pow]. lia. Qed.
Lemma write_blocks (g : nat -> nat -> R) L : forall k, fold_left set_at (flat_map (fun l => map (fun c => ((l ^ 2 + c)%nat, g l c)) (seq 0 (2 * l + 1))) (seq 0 L)) (repeat 0 (L ^ 2 + k)) = flat_map (fun l => map (g l) (seq 0 (2 * l + 1))) (seq 0 L) ++ repeat 0 k.
Proof.
  induction L as [|L IH]; intros k; [reflexivity|]. rewrite seq_S, !flat_map_app, fold_left_app. cbn [flat_map]. rewrite !app_nil_r, Nat.add_0_l. replace (S L ^ 2 + k)%nat with (L ^ 2 + (2 * L + 1 + k))%nat by (cbn [Nat.pow]; lia). rewrite IH.
  set (A := flat_map _ (seq 0 L)). pose proof (writes (g L) (2 * L + 1) A k 0) as W. assert (LA : length A = (L ^ 2)%nat) by apply blocks_length. rewrite LA in W. rewrite <- app_assoc, <- W. f_equal. apply map_ext. intros c. rewrite Nat.sub_0_r. reflexivity.
Qed.
Lemma legendre_block lmax x n l : length x = 3%nat -> (l <= lmax)%nat -> list_slice (legendre_sh lmax x n) (l ^ 2) ((l + 1) ^ 2) = Y n l x.
Proof.
  intros Lx Hl. unfold legendre_sh. pose proof (write_blocks (legendre_entry lmax x n) (lmax + 1) 0) as W. rewrite Nat.add_0_r, app_nil_r in W. rewrite W. clear W. replace (lmax + 1)%nat with (l + S (lmax - l))%nat by lia. rewrite seq_app, flat_map_app. cbn [seq flat_map Nat.add].
  replace ((l + 1) ^ 2)%nat with (l ^ 2 + (2 * l + 1))%nat by (cbn [Nat.pow]; lia). rewrite list_slice_firstn. rewrite <- (blocks_length (legendre_entry lmax x n) l) at 1. rewrite skipn_app, skipn_all, Nat.sub_diag. cbn [skipn app]. rewrite firstn_app, firstn_all2 by (rewrite map_length, seq_length; lia). rewrite map_length, seq_length, Nat.sub_diag, firstn_O, app_nil_r.
  unfold Y, tab. apply map_ext_in. intros c Hc. apply in_seq in Hc. apply legendre_entry_spec; lia.
Qed.
Lemma harmonics_legendre ls x n alg : length x = 3%nat -> ls <> [] -> has_kw KLegendre alg = true -> harmonics ls x n alg = Ok (map (fun l => Y n l x) ls).
Proof.
  intros Lx Hn K. unfold harmonics. rewrite K. destruct (max_of ls) as [m|e] eqn:E; [|destruct ls; [congruence|discriminate E]]. cbn [bind]. apply f_equal. apply map_ext_in. intros l Hl. apply legendre_block; [exact Lx|]. pose proof (max_of_bound ls m E) as F. rewrite Forall_forall in F. auto.
Qed.
(* the algorithms that evaluate the degrees ls; all give the same result *)
Definition evaluates (alg : list keyword) (ls : list nat) : Prop := has_kw KLegendre alg = true \/ (has_kw KRecursive alg = true /\ recursive_ok alg ls).
Theorem harmonics_spec ls x n alg : length x = 3%nat -> ls <> [] -> (evaluates alg ls -> harmonics ls x n alg = Ok (map (fun l => Y n l x) ls)) /\ (~ evaluates alg ls -> harmonics ls x n alg = Err ValueError).
Proof.
  intros Lx Hn. unfold evaluates. destruct (has_kw KLegendre alg) eqn:KL; [split; [intros _; now apply harmonics_legendre|intros H; exfalso; apply H; now left]|].
  split.
  - intros [H|[K H]]; [discriminate|]. now apply harmonics_recursive.
  - intros H. destruct (has_kw KRecursive alg) eqn:KR; [|unfold harmonics; rewrite KL, KR; reflexivity]. apply harmonics_rejects; auto.
Qed.
