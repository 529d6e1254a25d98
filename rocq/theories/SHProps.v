(* C52: spherical_harmonics accepts exactly the meaningful requests, all its algorithms compute the same functions, and these are the real spherical harmonics. *)
From Coq Require Import Reals Lra ZArith Lia List Bool Arith.
From Coquelicot Require Import Coquelicot.
From Verif Require Import PyBase IrrepsModel IrrepsProofs ArrayModel ArrayProofs LeadModel LeadProofs SumR TPProofs CGModel RotationModel RotationProofs RadialProofs S2Model S2Proofs S2Proofs2 S2Props2 ActProofs EquivProofs WignerModel WignerProofs WignerProofs2 WignerProps TPProofs2 TPProofs3 SHModel SHProofs SHProofs2 SHProofs3 SHProofs4 SHProofs5 SHProofs6 SHProofs7 SHProofs8.
From Verif Require Import EntryProofs.
Import ListNotations.
Open Scope R_scope.

(* ---- specification ---- *)
(* the parity of every output is that of a polynomial of degree l in a vector of parity p *)
Definition natural (p : parity) (x : irreps) : Prop := Forall (fun m => ir_p (snd m) = ppow p (ir_l (snd m))) x.
(* the input is one vector of parity p; a bare array has no declared parity *)
Definition vector_of_parity (inp : sh_in) (p : parity) : Prop := match inp with InIrreps a => irr a = [(1%nat, Irrep 1 p)] | InArray _ _ _ => True end.
Definition well_formed (inp : sh_in) : Prop := match inp with InIrreps a => coherent a | InArray s d a => forall i, valid s i -> length (a i) = d end.
(* the output irreps that are asked for: given, or with the natural parity *)
Definition requests (out : sh_out) (inp : sh_in) (x : irreps) : Prop :=
  match out, inp with
  | OutIrreps y, _ => x = y
  | OutInt l, InIrreps a => exists p, irr a = [(1%nat, Irrep 1 p)] /\ x = [(1%nat, Irrep l (ppow p l))]
  | OutList ls, InIrreps a => exists p, irr a = [(1%nat, Irrep 1 p)] /\ x = map (fun l => (1%nat, Irrep l (ppow p l))) ls
  | _, InArray _ _ _ => False
  end.
(* an explicit choice of algorithm: known keywords, legendre or recursive, and for degrees above 1 the recursion needs dense or sparse *)
Definition works (alg : list keyword) (x : irreps) : Prop :=
  ~ In KOther alg /\ (In KLegendre alg \/ In KRecursive alg /\ (In KDense alg \/ In KSparse alg \/ Forall (fun m => (ir_l (snd m) <= 1)%nat) x)).
Definition usable (auto algorithm : option (list keyword)) (x : irreps) : Prop := match algorithm, auto with Some a, _ => works a x | None, Some a => works a x | None, None => True end.
Definition shape_of (inp : sh_in) : shape := match inp with InIrreps a => lead a | InArray s _ _ => s end.
Definition width_of (inp : sh_in) : nat := match inp with InIrreps a => 3 | InArray _ d _ => d end.
Definition points (inp : sh_in) : idx -> list R := match inp with InIrreps a => arr a | InArray _ _ a => a end.

(* ---- lemmas ---- *)
Lemma ppow_odd p l : ppow p l = if (l mod 2 =? 1)%nat then p else Even.
Proof.
  induction l as [|l IH]; [reflexivity|]. cbn [ppow]. rewrite IH. assert (E : (S l mod 2 = if (l mod 2 =? 1) then 0 else 1)%nat). { pose proof (Nat.div_mod l 2 ltac:(lia)). pose proof (Nat.mod_upper_bound l 2 ltac:(lia)). destruct (Nat.eqb_spec (l mod 2) 1) as [E|E]; [symmetry; apply (Nat.mod_unique _ _ (S (l / 2))); lia|symmetry; apply (Nat.mod_unique _ _ (l / 2)); lia]. }
  rewrite E. destruct (l mod 2 =? 1)%nat; destruct p; reflexivity.
Qed.
Lemma vector_iff x p : check_is_vector x = Ok p <-> x = [(1%nat, Irrep 1 p)].
Proof.
  unfold check_is_vector. split.
  - destruct (Nat.eqb_spec (num_irreps x) 1) as [N|N]; cbn [negb]; [|discriminate]. destruct x as [|[mul [l q]] [|]]; try discriminate. cbn [ir_l ir_p]. destruct (Nat.eqb_spec mul 1) as [->|]; [|discriminate]. destruct (Nat.eqb_spec l 1) as [->|]; [|discriminate]. cbn [andb]. intros E. injection E as ->. reflexivity.
  - intros ->. reflexivity.
Qed.
Lemma irreps_iff out inp x : sh_irreps out inp = Ok x <-> requests out inp x.
Proof.
  destruct out as [y|l|ls], inp as [a|s d a]; cbn [sh_irreps requests]; try (split; [discriminate|intros []]); try (split; [intros E; injection E as ->; reflexivity|intros ->; reflexivity]).
  - split; [destruct (check_is_vector (irr a)) as [p|] eqn:E; cbn [bind]; [intros Q; injection Q as <-; exists p; split; [now apply vector_iff|reflexivity]|discriminate]|intros (p & E & ->); rewrite (proj2 (vector_iff _ p) E); reflexivity].
  - split; [destruct (check_is_vector (irr a)) as [p|] eqn:E; cbn [bind]; [intros Q; injection Q as <-; exists p; split; [now apply vector_iff|reflexivity]|discriminate]|intros (p & E & ->); rewrite (proj2 (vector_iff _ p) E); reflexivity].
Qed.
Definition odd_part (x : irreps) : irreps := filter (fun m => (ir_l (snd m) mod 2 =? 1)%nat) x.
Definition even_check (x : irreps) : bool := forallb (fun m => ((ir_l (snd m) mod 2 =? 1)%nat || parity_eqb (ir_p (snd m)) Even)) x.
Definition odd_check (x : irreps) : bool := match odd_part x with [] => true | m :: t => forallb (fun m' => parity_eqb (ir_p (snd m)) (ir_p (snd m'))) t end.
Lemma odd_part_in m x : In m (odd_part x) <-> In m x /\ (ir_l (snd m) mod 2 = 1)%nat.
Proof. unfold odd_part. rewrite filter_In, Nat.eqb_eq. reflexivity. Qed.
Lemma natural_iff x p : natural p x <-> even_check x = true /\ forallb (fun m => parity_eqb p (ir_p (snd m))) (odd_part x) = true.
Proof.
  unfold natural, even_check. rewrite Forall_forall, !forallb_forall. split.
  - intros H. split; intros m Hm.
    + specialize (H m Hm). rewrite ppow_odd in H. destruct (_ mod 2 =? 1)%nat; [reflexivity|]. cbn [orb]. now apply parity_eqb_eq.
    + apply odd_part_in in Hm. destruct Hm as [Hm O]. specialize (H m Hm). rewrite ppow_odd, O in H. cbn in H. apply parity_eqb_eq. now symmetry.
  - intros [A B] m Hm. rewrite ppow_odd. destruct (Nat.eqb_spec (ir_l (snd m) mod 2) 1) as [O|O].
    + symmetry. apply parity_eqb_eq, B, odd_part_in. split; assumption.
    + specialize (A m Hm). rewrite (proj2 (Nat.eqb_neq _ _) O) in A. cbn [orb] in A. now apply parity_eqb_eq.
Qed.
Lemma natural_exists x : (exists p, natural p x) <-> even_check x = true /\ odd_check x = true.
Proof.
  split.
  - intros [p H]. apply natural_iff in H. destruct H as [A B]. split; [exact A|]. unfold odd_check. destruct (odd_part x) as [|m t]; [reflexivity|]. cbn [forallb] in B. apply andb_true_iff in B. destruct B as [B C]. apply parity_eqb_eq in B. subst p. exact C.
  - intros [A B]. unfold odd_check in B. destruct (odd_part x) as [|m t] eqn:E; [exists Even; apply natural_iff; rewrite E; split; [exact A|reflexivity]|].
    exists (ir_p (snd m)). apply natural_iff. rewrite E. split; [exact A|]. cbn [forallb]. rewrite B. rewrite (proj2 (parity_eqb_eq _ _) eq_refl). reflexivity.
Qed.
Lemma has_kw_in k alg : has_kw k alg = true <-> In k alg.
Proof. unfold has_kw. rewrite existsb_exists. split; [intros (q & H & E); destruct k, q; try discriminate E; exact H|intros H; exists k; split; [exact H|destruct k; reflexivity]]. Qed.
Lemma works_iff alg x : works alg x <-> has_kw KOther alg = false /\ evaluates alg (map (fun m => ir_l (snd m)) x).
Proof.
  unfold works, evaluates, recursive_ok, can_contract. rewrite orb_true_iff, !has_kw_in, Forall_map, <- not_true_iff_false, has_kw_in. tauto.
Qed.
Definition chosen (auto algorithm : option (list keyword)) (x : irreps) : res (list keyword) :=
  match algorithm with Some alg => Ok alg | None => match auto with None => let! m := lmax x in Ok (if (m <=? 8)%nat then [KRecursive; KDense; KCustomJvp] else [KLegendre; KDense; KCustomJvp]) | Some alg => Ok alg end end.
Lemma lmax_some x : num_irreps x <> 0%nat -> exists m, lmax x = Ok m.
Proof.
  intros N. unfold lmax. destruct x as [|m x]; [exfalso; apply N; reflexivity|]. cbn [length Nat.eqb]. destruct (ls (m :: x)) as [|a t] eqn:E; [|eexists; reflexivity].
  exfalso. apply N. clear N. unfold ls in E. revert E. generalize (m :: x). clear. induction l as [|[n ir] l IH]; [reflexivity|]. cbn [flat_map]. destruct n; [|discriminate]. intros E. rewrite num_irreps_cons, IH by exact E. reflexivity.
Qed.
Lemma usable_iff auto algorithm x : num_irreps x <> 0%nat -> usable auto algorithm x <-> exists alg, chosen auto algorithm x = Ok alg /\ works alg x.
Proof.
  intros N. unfold usable, chosen. destruct algorithm as [a|]; [|destruct auto as [a|]]; try (split; [intros H; exists a; auto|intros (q & E & H); injection E as ->; exact H]).
  split; [intros _|auto]. destruct (lmax_some x N) as [m ->]. cbn [bind]. eexists. split; [reflexivity|]. apply works_iff. destruct (m <=? 8)%nat; (split; [reflexivity|]); [right; split; [reflexivity|left; reflexivity]|left; reflexivity].
Qed.
(* the value of one entry *)
Definition value (n : s2norm) (normalize : bool) (row : list R) (l j : nat) : R := kappa n l * P l (fn (if normalize then normalized row else row)) j.
Lemma normalized_length x : length (normalized x) = length x. Proof. apply map_length. Qed.
Lemma num_nonempty x : num_irreps x <> 0%nat -> x <> []. Proof. intros N ->. apply N. reflexivity. Qed.
Lemma sh_yields auto out inp normalize n algorithm p x : well_formed inp -> requests out inp x -> vector_of_parity inp p -> natural p x -> num_irreps x = 0%nat \/ (width_of inp = 3%nat /\ usable auto algorithm x) ->
  yields (spherical_harmonics auto out inp normalize n algorithm) x (shape_of inp) (fun i => rowof x (fun k u j => value n normalize (points inp i) (deg x k) j)).
Proof.
  intros W Rq V N U. unfold spherical_harmonics. rewrite (proj2 (irreps_iff out inp x) Rq). cbn [bind]. fold (odd_part x). fold (even_check x). fold (odd_check x).
  destruct (proj1 (natural_exists x) (ex_intro _ p N)) as [E1 E2]. rewrite E1, E2. cbn [negb].
  assert (B : (match inp with InIrreps a => let! p := check_is_vector (irr a) in if negb (forallb (fun m => parity_eqb p (ir_p (snd m))) (odd_part x)) then Err ValueError else Ok (lead a, 3%nat, arr a) | InArray s d a => Ok (s, d, a) end) = Ok (shape_of inp, width_of inp, points inp)).
  { destruct inp as [a|s d a]; [|reflexivity]. cbn [vector_of_parity] in V. rewrite (proj2 (vector_iff _ p) V). cbn [bind]. rewrite (proj2 (proj1 (natural_iff x p) N)). reflexivity. }
  rewrite B. cbn [bind fst snd].
  destruct (Nat.eqb_spec (num_irreps x) 0) as [Z|Z].
  - assert (D0 : dim x = 0%nat) by (clear -Z; induction x as [|[m ir] x IH]; [reflexivity|]; rewrite num_irreps_cons in Z; rewrite dim_cons, IH by lia; unfold mi_dim; cbn [fst]; nia).
    assert (R0 : forall F, rowof x F = []). { intros F. clear -Z. revert F. induction x as [|[m ir] x IH]; intros F; [reflexivity|]. rewrite num_irreps_cons in Z. cbn [rowof]. rewrite IH by lia. cbn [fst snd]. assert (m = 0)%nat by lia. subst m. reflexivity. }
    pose proof (ArithProofs.new_yields x (shape_of inp) (fun _ => [])) as Q. rewrite D0 in Q. apply (yields_ext _ _ _ (fun _ => [])); [intros i _; now rewrite R0|apply Q; reflexivity].
  - destruct U as [U|[Wd U]]; [contradiction|]. destruct (proj1 (usable_iff auto algorithm x Z) U) as (alg & Ea & Ha). fold (chosen auto algorithm x). rewrite Ea. cbn [bind]. apply works_iff in Ha. destruct Ha as [K Ev]. rewrite K, Wd. cbn [Nat.eqb negb].
    set (ls := map (fun m => ir_l (snd m)) x) in *. assert (Hn : ls <> []) by (intros Q; apply map_eq_nil in Q; now apply (num_nonempty x)).
    rewrite (proj1 (harmonics_spec ls [0; 0; 0] n alg eq_refl Hn) Ev). cbn [bind]. set (pt := fun i => if normalize then normalized (points inp i) else points inp i).
    assert (L3 : forall i, valid (shape_of inp) i -> length (pt i) = 3%nat).
    { intros i Hi. assert (length (points inp i) = 3%nat). { destruct inp as [a|s d a]; cbn [well_formed vector_of_parity shape_of width_of points] in *; [rewrite (proj1 W i Hi), V; reflexivity|rewrite (W i Hi); exact Wd]. } unfold pt. destruct normalize; [now rewrite normalized_length|assumption]. }
    assert (Hr : forall i k, valid (shape_of inp) i -> (k < length x)%nat -> row_or_nil (harmonics ls (pt i) n alg) k = Y n (deg x k) (pt i)).
    { intros i k Hi Hk. rewrite (proj1 (harmonics_spec ls (pt i) n alg (L3 i Hi) Hn) Ev). cbn [row_or_nil]. unfold ls, deg. rewrite map_map. rewrite (nth_indep _ [] ((fun m : mulirrep => Y n (ir_l (snd m)) (pt i)) none)) by (rewrite map_length; exact Hk). exact (map_nth (fun m : mulirrep => Y n (ir_l (snd m)) (pt i)) x none k). }
    eapply yields_ext; [|apply from_chunks_rowof].
    + intros i Hi. cbv beta. apply rowof_ext. intros k u j (mul & ir & E & Hu & Hj). assert (Hk : (k < length x)%nat) by (apply nth_error_Some; congruence).
      rewrite (nth_indep _ None ((fun '(k, m) => Some (Chunk (shape_of inp) (fst m) (ir_dim (snd m)) (fun i => repeat (row_or_nil (harmonics ls (pt i) n alg) k) (fst m)))) (0%nat, none))) by (rewrite map_length; unfold enumerate; rewrite combine_length, seq_length; lia).
      etransitivity; [apply (f_equal (fun c => centry c i u j)); exact (map_nth (fun '(k, m) => Some (Chunk (shape_of inp) (fst m) (ir_dim (snd m)) (fun i => repeat (row_or_nil (harmonics ls (pt i) n alg) k) (fst m)))) (enumerate x) (0%nat, none) k)|]. rewrite nth_enumerate by exact Hk. cbn [centry c_val snd]. rewrite (nth_error_nth _ _ none E). cbn [fst]. rewrite Hr by assumption.
      rewrite (nth_indep _ [] (Y n (deg x k) (pt i))) by (rewrite repeat_length; exact Hu). rewrite nth_repeat. unfold Y, value. exact (nth_tab (2 * deg x k + 1) (fun k0 => kappa n (deg x k) * P (deg x k) (fn (pt i)) k0) j 0 ltac:(unfold deg; rewrite (nth_error_nth _ _ none E); exact Hj)).
    + assert (F : forall m k, In (k, m) (enumerate x) -> nth_error x k = Some m). { intros m k H. unfold enumerate in H. apply (In_nth _ _ (0%nat, none)) in H. destruct H as (q & Hq & E). rewrite combine_length, seq_length, Nat.min_id in Hq. rewrite combine_nth in E by apply seq_length. rewrite seq_nth in E by exact Hq. injection E as <- <-. rewrite (nth_error_nth' x none) by exact Hq. reflexivity. }
      assert (G : forall e, (forall m k, In (k, m) e -> nth_error x k = Some m) -> Forall2 (wf_opt (shape_of inp)) (map snd e) (map (fun '(k, m) => Some (Chunk (shape_of inp) (fst m) (ir_dim (snd m)) (fun i => repeat (row_or_nil (harmonics ls (pt i) n alg) k) (fst m)))) e)).
      { induction e as [|[k m] e IH]; intros He; [constructor|]. cbn [map snd]. constructor; [|apply IH; intros; apply He; now right]. cbn [wf_opt]. pose proof (He m k (or_introl eq_refl)) as Ek. assert (Hk : (k < length x)%nat) by (apply nth_error_Some; congruence). split; [reflexivity|split; [reflexivity|split; [reflexivity|]]]. intros i Hi. cbn [c_val]. split; [apply repeat_length|]. apply Forall_forall. intros r Hin. apply repeat_spec in Hin. subst r. rewrite Hr by assumption. unfold Y. rewrite tab_length. unfold deg. rewrite (nth_error_nth _ _ none Ek). reflexivity. }
      pose proof (G (enumerate x) F) as Q. rewrite (TPProofs3.enumerate_snd x) in Q. exact Q.
Qed.
Lemma sh_accepts_inv auto out inp normalize n algorithm z : spherical_harmonics auto out inp normalize n algorithm = Ok z ->
  exists p x, requests out inp x /\ vector_of_parity inp p /\ natural p x /\ (num_irreps x = 0%nat \/ (width_of inp = 3%nat /\ usable auto algorithm x)).
Proof.
  unfold spherical_harmonics. destruct (sh_irreps out inp) as [x|] eqn:Ex; cbn [bind]; [|discriminate]. apply irreps_iff in Ex. fold (odd_part x). fold (even_check x). fold (odd_check x).
  destruct (even_check x) eqn:E1; cbn [negb]; [|discriminate]. destruct (odd_check x) eqn:E2; cbn [negb]; [|discriminate].
  assert (B : forall r, (match inp with InIrreps a => let! p := check_is_vector (irr a) in if negb (forallb (fun m => parity_eqb p (ir_p (snd m))) (odd_part x)) then Err ValueError else Ok (lead a, 3%nat, arr a) | InArray s d a => Ok (s, d, a) end) = Ok r -> (exists p, vector_of_parity inp p /\ natural p x) /\ snd (fst r) = width_of inp).
  { intros r. destruct inp as [a|s d a]; [|intros E; injection E as <-; split; [destruct (proj2 (natural_exists x) (conj E1 E2)) as [p N]; exists p; split; [exact Logic.I|exact N]|reflexivity]].
    destruct (check_is_vector (irr a)) as [p|] eqn:V; cbn [bind]; [|discriminate]. destruct (forallb _ (odd_part x)) eqn:F; cbn [negb]; [|discriminate]. intros E. injection E as <-. split; [|reflexivity]. exists p. split; [now apply vector_iff|apply natural_iff; split; assumption]. }
  match goal with |- (let! v := ?m in _) = _ -> _ => destruct m as [r|] eqn:Er end; cbn [bind]; [|discriminate]. destruct (B r eq_refl) as [(p & V & N) Wd]. rewrite Wd.
  destruct (Nat.eqb_spec (num_irreps x) 0) as [Z|Z]; [intros _; exists p, x; auto|]. fold (chosen auto algorithm x). destruct (chosen auto algorithm x) as [alg|] eqn:Ea; cbn [bind]; [|discriminate].
  destruct (has_kw KOther alg) eqn:K; [discriminate|]. destruct (Nat.eqb_spec (width_of inp) 3) as [W3|]; cbn [negb]; [|discriminate]. set (ls := map _ x). intros H. exists p, x. repeat split; try assumption. right. split; [exact W3|]. apply usable_iff; [exact Z|]. exists alg. split; [exact Ea|]. apply works_iff. split; [exact K|]. fold ls.
  assert (Hn : ls <> []) by (intros Q; apply map_eq_nil in Q; now apply (num_nonempty x)). destruct (Classical_Prop.classic (evaluates alg ls)) as [C|C]; [exact C|]. rewrite (proj2 (harmonics_spec ls [0; 0; 0] n alg eq_refl Hn) C) in H. discriminate H.
Qed.
(* ---- theorems ---- *)
(* which calls succeed *)
Theorem C52_accepts auto out inp normalize n algorithm : well_formed inp ->
  (exists z, spherical_harmonics auto out inp normalize n algorithm = Ok z) <->
  exists p x, requests out inp x /\ vector_of_parity inp p /\ natural p x /\ (num_irreps x = 0%nat \/ (width_of inp = 3%nat /\ usable auto algorithm x)).
Proof.
  intros W. split; [intros [z H]; eapply sh_accepts_inv, H|]. intros (p & x & Rq & V & N & U). destruct (sh_yields auto out inp normalize n algorithm p x W Rq V N U) as (z & E & _). exists z. exact E.
Qed.
Lemma sh_spec auto out inp normalize n algorithm z : well_formed inp -> spherical_harmonics auto out inp normalize n algorithm = Ok z ->
  requests out inp (irr z) /\ lead z = shape_of inp /\ coherent z /\ (forall i, valid (lead z) i -> arr z i = rowof (irr z) (fun k u j => value n normalize (points inp i) (deg (irr z) k) j)) /\ (exists p, vector_of_parity inp p /\ natural p (irr z)) /\ (num_irreps (irr z) <> 0%nat -> width_of inp = 3%nat).
Proof.
  intros W H. destruct (sh_accepts_inv _ _ _ _ _ _ _ H) as (p & x & Rq & V & N & U). destruct (sh_yields auto out inp normalize n algorithm p x W Rq V N U) as (z' & E & A & B & C & D). assert (z' = z) by congruence. subst z'. rewrite A, B in *. repeat split; try assumption; try apply C. { exists p. split; assumption. } intros Z. destruct U as [U|[U _]]; [contradiction|exact U].
Qed.
(* the result: the requested irreps, the shape of the input, and in every copy of every irrep the harmonics of that degree at the point, whatever the algorithm,
   the other degrees asked for, their order and repetitions.  (r, y, alpha) are polar coordinates of the point about the axis y; every vector has some. *)
Definition constant (n : s2norm) (l : nat) : R := match n with Integral => 1 | Component => sqrt (4 * PI) | Norm => sqrt (4 * PI) / sqrt (2 * INR l + 1) end.
Definition coordinates (row : list R) (r y alpha : R) : Prop := 0 <= r /\ -1 <= y <= 1 /\ row = [r * (sqrt (1 - y ^ 2) * sin alpha); r * y; r * (sqrt (1 - y ^ 2) * cos alpha)].
Lemma row3 (row : list R) : length row = 3%nat -> row = [nth 0 row 0; nth 1 row 0; nth 2 row 0].
Proof. destruct row as [|a [|b [|c [|]]]]; intros H; try discriminate H; reflexivity. Qed.
Theorem C52_coordinates_exist row : length row = 3%nat -> exists r y alpha, coordinates row r y alpha.
Proof.
  intros L. destruct (polar row L) as (A & B & E). cbv zeta in A, B, E. do 3 eexists. split; [exact A|split; [exact B|]]. etransitivity; [apply (row3 row L)|].
  pose proof (E 0%nat ltac:(lia)) as E0. pose proof (E 1%nat ltac:(lia)) as E1. pose proof (E 2%nat ltac:(lia)) as E2. unfold fn in E0, E1, E2. cbn [vec3] in E0, E1, E2. f_equal; [exact E0|f_equal; [exact E1|f_equal; exact E2]].
Qed.
Lemma sq_norm r y a : -1 <= y <= 1 -> (r * (sqrt (1 - y ^ 2) * sin a)) ^ 2 + (r * y) ^ 2 + (r * (sqrt (1 - y ^ 2) * cos a)) ^ 2 = r ^ 2.
Proof.
  intros Hy. assert (Q : sqrt (1 - y ^ 2) * sqrt (1 - y ^ 2) = 1 - y ^ 2) by (apply sqrt_sqrt; nra). set (s := sqrt (1 - y ^ 2)) in *. pose proof (sin2_cos2 a) as T. unfold Rsqr in T.
  transitivity (r ^ 2 * ((s * s) * (sin a * sin a + cos a * cos a) + y ^ 2)); [ring|]. rewrite Q, T. ring.
Qed.
Lemma normalized_coordinates row r y alpha : coordinates row r y alpha -> coordinates (normalized row) (if Req_EM_T r 0 then 0 else 1) y alpha.
Proof.
  intros (Hr & Hy & E). split; [destruct (Req_EM_T r 0); lra|split; [exact Hy|]]. unfold normalized. rewrite E. set (r2 := lsum (A:=R) _ _). cbn [map].
  assert (R2 : r2 = r ^ 2). { unfold r2. rewrite <- (sq_norm r y alpha Hy). unfold lsum. cbn [map fold_right]. ring. }
  clearbody r2. subst r2. destruct (Req_EM_T r 0) as [->|N].
  - destruct (Req_EM_T (0 ^ 2) 0) as [_|Q]; [|exfalso; apply Q; ring]. rewrite sqrt_1. f_equal; [field|f_equal; [field|f_equal; field]].
  - destruct (Req_EM_T (r ^ 2) 0) as [Q|_]; [exfalso; apply N; nra|]. replace (r ^ 2) with (r * r) by ring. rewrite sqrt_square by exact Hr. f_equal; [field; exact N|f_equal; [field; exact N|f_equal; field; exact N]].
Qed.
Lemma kappa_constant n l : kappa n l = constant n l * c4 l.
Proof.
  unfold kappa, constant, c4. assert (0 < 4 * PI) by (pose proof PI_RGT_0; lra). assert (0 < 2 * INR l + 1) by (pose proof (pos_INR l); lra). assert (A : 0 < sqrt (4 * PI)) by (apply sqrt_lt_R0; assumption). assert (B : 0 < sqrt (2 * INR l + 1)) by (apply sqrt_lt_R0; assumption).
  destruct n; rewrite ?sqrt_div by lra; field; lra.
Qed.
Lemma value_polar n row r y alpha l j : coordinates row r y alpha -> (j < 2 * l + 1)%nat -> value n false row l j = constant n l * r ^ l * harmonic l (Z.of_nat j - Z.of_nat l) y alpha.
Proof.
  intros (Hr & Hy & E) Hj. unfold value. rewrite (P_ext l (fn row) (fun i => r * vec3 (sqrt (1 - y ^ 2) * sin alpha) y (sqrt (1 - y ^ 2) * cos alpha) i)); [|rewrite E; intros [|[|[|i]]] Hi; reflexivity || lia|exact Hj].
  rewrite P_scale, kappa_constant. rewrite harmonic_Ylm by lia. rewrite <- P_sphere by assumption. ring.
Qed.
Theorem C52_values auto out inp normalize n algorithm z : well_formed inp -> spherical_harmonics auto out inp normalize n algorithm = Ok z ->
  requests out inp (irr z) /\ lead z = shape_of inp /\ coherent z /\
  forall i k u j r y alpha, valid (lead z) i -> inside (irr z) k u j -> coordinates (points inp i) r y alpha ->
    let l := deg (irr z) k in
    let rho := if normalize then if Req_EM_T r 0 then 0 else 1 else r in
    entry (irr z) (arr z i) k u j = constant n l * rho ^ l * harmonic l (Z.of_nat j - Z.of_nat l) y alpha.
Proof.
  intros W H. destruct (sh_spec _ _ _ _ _ _ _ W H) as (A & B & C & D & _). split; [exact A|split; [exact B|split; [exact C|]]]. intros i k u j r y alpha Hi Hin Hc. cbv zeta. rewrite (D i Hi). rewrite entry_rowof by exact Hin.
  assert (Hj : (j < 2 * deg (irr z) k + 1)%nat) by (destruct Hin as (mul & ir & E & _ & Hj); unfold deg; rewrite (nth_error_nth _ _ none E); exact Hj).
  destruct normalize; [|apply value_polar; assumption]. apply (value_polar n (normalized (points inp i))); [apply normalized_coordinates, Hc|exact Hj].
Qed.
