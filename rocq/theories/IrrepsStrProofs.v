From Verif Require Import PyBase PermModel IrrepsModel IrrepsProofs IrrepsStr.
From Coq Require Import Ascii String.
Local Open Scope char_scope.
Local Open Scope list_scope.

(* characters that are neither blank nor special *)
Definition is_digit (c : ascii) : bool := match digit_val c with Some _ => true | None => false end.
Definition solid (c : ascii) : bool := negb (is_space c).
Definition blank (s : chars) : Prop := Forall (fun c => is_space c = true) s.

Lemma digit_char_val d : d < 10 -> digit_val (digit_char d) = Some d.
Proof.
  intros H. unfold digit_char. do 10 (destruct d as [|d]; [reflexivity|]). lia.
Qed.

Lemma is_digit_not_space c : is_digit c = true -> is_space c = false.
Proof.
  unfold is_digit, digit_val, is_space. destruct ((48 <=? nat_of_ascii c) && (nat_of_ascii c <=? 57))%nat eqn:E; [|discriminate]. lia.
Qed.

Lemma is_digit_neq c c' : is_digit c = true -> is_digit c' = false -> Ascii.eqb c c' = false.
Proof.
  intros H H'. destruct (Ascii.eqb_spec c c'); [congruence|reflexivity].
Qed.

Lemma digits_fuel_digits f n : Forall (fun c => is_digit c = true) (digits_fuel f n).
Proof.
  revert n. induction f as [|f IH]; intros n; cbn [digits_fuel]; [constructor|].
  assert (D : forall d, d < 10 -> is_digit (digit_char d) = true).
  { intros d Hd. unfold is_digit. rewrite digit_char_val by assumption. reflexivity. }
  destruct (Nat.ltb_spec n 10); [repeat constructor; auto|].
  apply Forall_app. split; [apply IH|]. repeat constructor. apply D. apply Nat.mod_upper_bound. lia.
Qed.

Lemma digits_fuel_nonempty f n : digits_fuel (S f) n <> [].
Proof.
  cbn [digits_fuel]. destruct (n <? 10)%nat; [discriminate|]. intros H. apply app_eq_nil in H. destruct H; discriminate.
Qed.

Lemma parse_digits_app s1 s2 acc b : Forall (fun c => is_digit c = true) s1 -> s1 <> [] \/ b = true ->
  parse_digits acc b (s1 ++ s2) = match parse_digits acc b s1 with Some a => parse_digits a true s2 | None => None end.
Proof.
  revert acc b. induction s1 as [|c s1 IH]; intros acc b H Hne; cbn [app parse_digits].
  - destruct Hne as [| ->]; [congruence|]. reflexivity.
  - inversion_clear H as [|? ? Hc Hs]. unfold is_digit in Hc. destruct (digit_val c) as [d|] eqn:E; [|discriminate].
    apply IH; auto.
Qed.

Lemma parse_digits_print f n : n < f -> forall b, parse_digits 0 b (digits_fuel f n) = Some n.
Proof.
  revert n. induction f as [|f IH]; intros n Hn b; [lia|]. cbn [digits_fuel].
  destruct (Nat.ltb_spec n 10).
  - cbn [parse_digits]. rewrite digit_char_val by assumption. cbn [parse_digits]. f_equal; lia.
  - destruct f as [|f]; [lia|].
    assert (Hd : n / 10 < S f) by (apply Nat.div_lt_upper_bound; lia).
    rewrite parse_digits_app by (auto using digits_fuel_digits; left; apply digits_fuel_nonempty).
    rewrite IH by assumption. cbn [parse_digits]. rewrite digit_char_val by (apply Nat.mod_upper_bound; lia).
    cbn [parse_digits]. f_equal. symmetry. apply Nat.div_mod. lia.
Qed.

Lemma print_nat_parse n : parse_digits 0 false (print_nat n) = Some n.
Proof. apply parse_digits_print. lia. Qed.

Lemma print_nat_digits n : Forall (fun c => is_digit c = true) (print_nat n).
Proof. apply digits_fuel_digits. Qed.

Lemma print_nat_nonempty n : print_nat n <> [].
Proof. apply digits_fuel_nonempty. Qed.

(* ---- strip ---- *)
Lemma lstrip_blank b s : blank b -> lstrip (b ++ s) = lstrip s.
Proof. induction 1 as [|c b Hc Hb IH]; [reflexivity|]. cbn [app lstrip]. rewrite Hc. exact IH. Qed.

Lemma lstrip_solid c s : is_space c = false -> lstrip (c :: s) = c :: s.
Proof. intros H. cbn [lstrip]. rewrite H. reflexivity. Qed.

Lemma strip_pad b1 b2 c s d :
  blank b1 -> blank b2 -> is_space c = false -> is_space d = false ->
  strip (b1 ++ (c :: s ++ [d]) ++ b2) = c :: s ++ [d].
Proof.
  intros H1 H2 Hc Hd. unfold strip. rewrite lstrip_blank by assumption.
  cbn [app]. rewrite lstrip_solid by assumption.
  change (c :: (s ++ [d]) ++ b2) with ((c :: s ++ [d]) ++ b2). rewrite rev_app_distr.
  rewrite lstrip_blank by (apply Forall_rev; assumption).
  change (c :: s ++ [d]) with ((c :: s) ++ [d]). rewrite rev_app_distr. cbn [rev app].
  rewrite lstrip_solid by assumption. rewrite <- (rev_involutive (d :: rev s ++ [c])).
  cbn [rev]. rewrite rev_app_distr, rev_involutive. cbn [rev app].
  rewrite rev_app_distr, rev_involutive. reflexivity.
Qed.

Lemma strip_pad1 b1 b2 c : blank b1 -> blank b2 -> is_space c = false -> strip (b1 ++ [c] ++ b2) = [c].
Proof.
  intros H1 H2 Hc. unfold strip. rewrite lstrip_blank by assumption. cbn [app].
  rewrite lstrip_solid by assumption. change (c :: b2) with ([c] ++ b2). rewrite rev_app_distr.
  rewrite lstrip_blank by (apply Forall_rev; assumption). cbn [rev app]. rewrite lstrip_solid by assumption. reflexivity.
Qed.

Lemma strip_blank b : blank b -> strip b = [].
Proof.
  intros H. unfold strip. rewrite <- (app_nil_r b), lstrip_blank by assumption. reflexivity.
Qed.

Lemma strip_solid_pad b1 s b2 : blank b1 -> blank b2 -> Forall (fun c => is_space c = false) s ->
  strip (b1 ++ s ++ b2) = s.
Proof.
  intros H1 H2 Hs. destruct s as [|c s].
  - cbn [app]. apply strip_blank. apply Forall_app; auto.
  - inversion_clear Hs as [|? ? Hc Hs']. destruct (rev s) as [|d r] eqn:E.
    + assert (s = []) as -> by (rewrite <- (rev_involutive s), E; reflexivity). apply strip_pad1; assumption.
    + assert (Es : s = rev r ++ [d]) by (rewrite <- (rev_involutive s), E; reflexivity). rewrite Es in *.
      apply Forall_app in Hs'. destruct Hs' as [_ Hd]. inversion_clear Hd. apply strip_pad; assumption.
Qed.

(* ---- int ---- *)
Lemma py_int_digits b1 b2 s n : blank b1 -> blank b2 -> s <> [] ->
  Forall (fun c => is_digit c = true) s -> parse_digits 0 false s = Some n -> py_int (b1 ++ s ++ b2) = Ok (Z.of_nat n).
Proof.
  intros H1 H2 Hne Hd Hp. unfold py_int.
  rewrite strip_solid_pad; auto; [|eapply Forall_impl; [|exact Hd]; intros; apply is_digit_not_space; assumption].
  destruct s as [|c s]; [congruence|]. inversion_clear Hd as [|? ? Hc _].
  rewrite (is_digit_neq c "-") by (assumption || reflexivity).
  rewrite (is_digit_neq c "+") by (assumption || reflexivity).
  rewrite Hp. reflexivity.
Qed.

Lemma py_int_print b1 b2 n : blank b1 -> blank b2 -> py_int (b1 ++ print_nat n ++ b2) = Ok (Z.of_nat n).
Proof. intros. apply py_int_digits; auto using print_nat_nonempty, print_nat_digits, print_nat_parse. Qed.

Lemma blank_nil : blank [].
Proof. constructor. Qed.

(* ---- irrep ---- *)
Definition suffix_parity (c : ascii) (l : nat) : option parity :=
  if Ascii.eqb c "e" then Some Even else if Ascii.eqb c "o" then Some Odd
  else if Ascii.eqb c "y" then Some (ppow Odd l) else None.

Lemma suffix_solid c l p : suffix_parity c l = Some p -> is_space c = false.
Proof.
  unfold suffix_parity. destruct (Ascii.eqb_spec c "e"); [subst; reflexivity|].
  destruct (Ascii.eqb_spec c "o"); [subst; reflexivity|]. destruct (Ascii.eqb_spec c "y"); [subst; reflexivity|discriminate].
Qed.

(* "  l  c  " : blanks allowed around, and between the number and the letter *)
Lemma parse_irrep_pad b1 l b2 c b3 p : blank b1 -> blank b2 -> blank b3 -> suffix_parity c l = Some p ->
  parse_irrep (b1 ++ (print_nat l ++ b2 ++ [c]) ++ b3) = Ok (Irrep l p).
Proof.
  intros H1 H2 H3 Hc. unfold parse_irrep.
  destruct (print_nat l) as [|d ds] eqn:E; [exfalso; eapply print_nat_nonempty; exact E|].
  pose proof (print_nat_digits l) as Hd. rewrite E in Hd. inversion_clear Hd as [|? ? Hd1 Hd2].
  assert (S : strip (b1 ++ ((d :: ds) ++ b2 ++ [c]) ++ b3) = d :: (ds ++ b2) ++ [c]).
  { rewrite <- (strip_pad b1 b3 d (ds ++ b2) c); auto using is_digit_not_space, (suffix_solid _ _ _ Hc).
    f_equal. f_equal. cbn [app]. rewrite <- !app_assoc. reflexivity. }
  rewrite S. change (d :: (ds ++ b2) ++ [c]) with ((d :: ds ++ b2) ++ [c]).
  rewrite rev_app_distr. cbn [rev app].
  replace (rev (rev (ds ++ b2) ++ [d])) with ([] ++ (d :: ds) ++ b2).
  2:{ rewrite rev_app_distr, rev_involutive. reflexivity. }
  rewrite <- E, py_int_print by (assumption || constructor).
  destruct (Z.leb_spec 0 (Z.of_nat l)); [|lia]. rewrite Nat2Z.id.
  unfold suffix_parity in Hc. destruct (Ascii.eqb c "e"); [congruence|]. destruct (Ascii.eqb c "o"); [congruence|].
  destruct (Ascii.eqb c "y"); [congruence|discriminate].
Qed.

Definition letter (p : parity) : ascii := match p with Even => "e" | Odd => "o" end.
Lemma suffix_letter p l : suffix_parity (letter p) l = Some p.
Proof. destruct p; reflexivity. Qed.

Lemma parse_print_irrep a : parse_irrep (print_irrep a) = Ok a.
Proof.
  pose proof (parse_irrep_pad [] (ir_l a) [] (letter (ir_p a)) [] (ir_p a)) as H.
  cbn [app] in H. rewrite app_nil_r in H. unfold print_irrep. fold (letter (ir_p a)).
  destruct a as [l p]; cbn [ir_l ir_p] in *. apply H; auto using blank_nil, suffix_letter.
Qed.

(* ---- split / join ---- *)
Definition free (sep : ascii) (s : chars) : Prop := Forall (fun c => Ascii.eqb c sep = false) s.

Lemma split_free sep s : free sep s -> split sep s = [s].
Proof.
  induction 1 as [|c s Hc Hs IH]; [reflexivity|]. cbn [split]. rewrite Hc, IH. reflexivity.
Qed.

Lemma split_app sep s r : free sep s -> split sep (s ++ sep :: r) = s :: split sep r.
Proof.
  induction 1 as [|c s Hc Hs IH]; cbn [app split].
  - rewrite Ascii.eqb_refl. reflexivity.
  - rewrite Hc, IH. reflexivity.
Qed.

Lemma split_join ws : ws <> [] -> Forall (free "+") ws -> split "+" (join ws) = ws.
Proof.
  intros Hne H. induction H as [|w ws Hw Hws IH]; [congruence|]. destruct ws as [|w' ws].
  - cbn [join]. apply split_free. assumption.
  - change (join (w :: w' :: ws)) with (w ++ "+" :: join (w' :: ws)).
    rewrite split_app by assumption. rewrite IH by discriminate. reflexivity.
Qed.

Lemma free_app sep s r : free sep s -> free sep r -> free sep (s ++ r).
Proof. intros; apply Forall_app; split; assumption. Qed.

Lemma free_digits sep s : is_digit sep = false -> Forall (fun c => is_digit c = true) s -> free sep s.
Proof. intros H Hs. eapply Forall_impl; [|exact Hs]. intros c Hc. apply is_digit_neq; assumption. Qed.

Lemma free_blank sep s : is_space sep = false -> blank s -> free sep s.
Proof.
  intros H Hs. eapply Forall_impl; [|exact Hs]. intros c Hc. cbv beta in Hc.
  destruct (Ascii.eqb_spec c sep); [congruence|reflexivity].
Qed.

Lemma existsb_free sep s : free sep s -> existsb (Ascii.eqb sep) s = false.
Proof.
  induction 1 as [|c s Hc Hs IH]; [reflexivity|]. cbn [existsb]. rewrite Ascii.eqb_sym, Hc. exact IH.
Qed.

(* ---- a written summand: optional "mul x", blanks anywhere between tokens ---- *)
Record term := Term { t_b1 : chars; t_mul : option (nat * chars * chars); t_l : nat; t_b2 : chars; t_c : ascii; t_b3 : chars }.
Definition term_chars (t : term) : chars :=
  t_b1 t ++ (match t_mul t with Some (m, b, b') => print_nat m ++ b ++ "x" :: b' | None => [] end) ++
  (print_nat (t_l t) ++ t_b2 t ++ [t_c t]) ++ t_b3 t.
Definition term_ok (t : term) : Prop :=
  blank (t_b1 t) /\ blank (t_b2 t) /\ blank (t_b3 t) /\
  match t_mul t with Some (_, b, b') => blank b /\ blank b' | None => True end /\
  suffix_parity (t_c t) (t_l t) <> None.
Definition term_val (t : term) : mulirrep :=
  (match t_mul t with Some (m, _, _) => m | None => 1 end,
   Irrep (t_l t) (match suffix_parity (t_c t) (t_l t) with Some p => p | None => Even end)).

Lemma suffix_free sep c l : suffix_parity c l <> None -> suffix_parity sep 0 = None -> Ascii.eqb c sep = false.
Proof.
  intros H1 H2. destruct (Ascii.eqb_spec c sep); [subst|reflexivity].
  unfold suffix_parity in *. repeat destruct (Ascii.eqb _ _); congruence.
Qed.

Lemma parse_term_ok t : term_ok t -> parse_term (term_chars t) = Ok (term_val t).
Proof.
  destruct t as [b1 mul l b2 c b3]. unfold term_ok, term_chars, term_val; cbn [t_b1 t_mul t_l t_b2 t_c t_b3].
  intros (H1 & H2 & H3 & Hm & Hc).
  destruct (suffix_parity c l) as [p|] eqn:Ep; [|congruence].
  assert (Fx : free "x" (print_nat l ++ b2 ++ [c])).
  { repeat apply free_app.
    - apply free_digits; [reflexivity|apply print_nat_digits].
    - apply free_blank; [reflexivity|assumption].
    - constructor; [|constructor]. apply (suffix_free _ c l); [congruence|reflexivity]. }
  unfold parse_term. destruct mul as [[[m b] b']|].
  - destruct Hm as [Hb Hb'].
    replace (b1 ++ (print_nat m ++ b ++ "x" :: b') ++ (print_nat l ++ b2 ++ [c]) ++ b3)
       with ((b1 ++ print_nat m ++ b) ++ "x" :: (b' ++ (print_nat l ++ b2 ++ [c]) ++ b3)).
    2:{ rewrite <- !app_assoc. reflexivity. }
    replace (existsb _ _) with true.
    2:{ symmetry. apply existsb_exists. exists "x". split; [apply in_or_app; right; left; reflexivity|reflexivity]. }
    rewrite split_app, split_free.
    + rewrite py_int_print by assumption. cbn [bind]. rewrite (parse_irrep_pad _ _ _ _ _ p) by assumption. cbn [bind].
      destruct (Z.leb_spec 0 (Z.of_nat m)); [|lia]. rewrite Nat2Z.id. reflexivity.
    + repeat apply free_app; try (apply free_blank; [reflexivity|assumption]).
      * apply free_digits; [reflexivity|apply print_nat_digits].
      * constructor; [|constructor]. apply (suffix_free _ c l); [congruence|reflexivity].
    + repeat apply free_app; try (apply free_blank; [reflexivity|assumption]).
      apply free_digits; [reflexivity|apply print_nat_digits].
  - cbn [app]. rewrite existsb_free.
    + rewrite (parse_irrep_pad _ _ _ _ _ p) by assumption. reflexivity.
    + repeat apply free_app; try (apply free_blank; [reflexivity|assumption]).
      * apply free_digits; [reflexivity|apply print_nat_digits].
      * constructor; [|constructor]. apply (suffix_free _ c l); [congruence|reflexivity].
Qed.

Lemma term_free t : term_ok t -> free "+" (term_chars t).
Proof.
  destruct t as [b1 mul l b2 c b3]. unfold term_ok, term_chars; cbn [t_b1 t_mul t_l t_b2 t_c t_b3].
  intros (H1 & H2 & H3 & Hm & Hc).
  assert (Fc : Ascii.eqb c "+" = false) by (apply (suffix_free _ c l); [assumption|reflexivity]).
  repeat apply free_app; try (apply free_blank; [reflexivity|assumption]).
  - destruct mul as [[[m b] b']|]; [|constructor]. destruct Hm as [Hb Hb']. repeat apply free_app; try (apply free_blank; [reflexivity|assumption]).
    + apply free_digits; [reflexivity|apply print_nat_digits].
    + constructor; [reflexivity|]. apply free_blank; [reflexivity|assumption].
  - apply free_digits; [reflexivity|apply print_nat_digits].
  - constructor; [assumption|constructor].
Qed.

Lemma strip_nonblank s : Exists (fun c => is_space c = false) s -> strip s <> [].
Proof.
  intros H E. unfold strip in E. 
  assert (E' : lstrip (rev (lstrip s)) = []) by (rewrite <- (rev_involutive (lstrip _)), E; reflexivity).
  assert (G : forall s, lstrip s = [] -> blank s).
  { clear. induction s as [|c s IH]; intros H; [constructor|]. cbn [lstrip] in H.
    destruct (is_space c) eqn:Ec; [constructor; [assumption|apply IH; assumption]|discriminate]. }
  apply G in E'. assert (B : blank (lstrip s)) by (rewrite <- (rev_involutive (lstrip s)); apply Forall_rev; assumption).
  assert (Hs : blank s).
  { clear - B. induction s as [|c s IH]; [constructor|]. cbn [lstrip] in B. destruct (is_space c) eqn:Ec; [constructor; [assumption|apply IH; assumption]|assumption]. }
  apply Exists_exists in H. destruct H as (c & Hin & Hc). unfold blank in Hs. rewrite Forall_forall in Hs. apply Hs in Hin. congruence.
Qed.

Lemma join_In w ws c : In w ws -> In c w -> In c (join ws).
Proof.
  induction ws as [|w' ws IH]; [intros []|]. intros [->|H] Hc.
  - destruct ws; [assumption|]. change (In c (w ++ "+" :: join (l :: ws))). apply in_or_app; left; assumption.
  - destruct ws as [|w'' ws]; [destruct H|]. change (In c (w' ++ "+" :: join (w'' :: ws))).
    apply in_or_app; right; right. auto.
Qed.

Lemma parse_irreps_ok ts : ts <> [] -> Forall term_ok ts ->
  parse_irreps (join (map term_chars ts)) = Ok (map term_val ts).
Proof.
  intros Hne H. unfold parse_irreps.
  destruct (strip (join (map term_chars ts))) eqn:E.
  - exfalso. revert E. apply strip_nonblank. apply Exists_exists.
    destruct ts as [|t ts]; [congruence|]. inversion_clear H as [|? ? Ht _].
    exists (t_c t). split.
    + apply (join_In (term_chars t)); [left; reflexivity|]. unfold term_chars.
      apply in_or_app; right. apply in_or_app; right. apply in_or_app; left.
      apply in_or_app; right. apply in_or_app; right. left; reflexivity.
    + destruct Ht as (_ & _ & _ & _ & Hc). destruct (suffix_parity (t_c t) (t_l t)) eqn:Es; [|congruence].
      eapply suffix_solid; exact Es.
  - rewrite split_join.
    + assert (M : mapM parse_term (map term_chars ts) = Ok (map term_val ts)).
      { clear Hne E. induction H as [|t ts Ht Hts IH]; [reflexivity|]. cbn [map mapM].
        rewrite parse_term_ok, IH by assumption. reflexivity. }
      rewrite M. reflexivity.
    + destruct ts; [congruence|discriminate].
    + apply Forall_map. eapply Forall_impl; [|exact H]. intros; apply term_free; assumption.
Qed.

Definition plain (m : mulirrep) : term :=
  Term [] (Some (fst m, [], [])) (ir_l (snd m)) [] (letter (ir_p (snd m))) [].

Lemma plain_ok m : term_ok (plain m).
Proof. unfold plain, term_ok; cbn [t_b1 t_mul t_l t_b2 t_c t_b3]. rewrite suffix_letter. repeat split; auto using blank_nil. discriminate. Qed.

Lemma plain_chars m : term_chars (plain m) = print_mulirrep m.
Proof.
  unfold plain, term_chars, print_mulirrep, print_irrep; cbn [t_b1 t_mul t_l t_b2 t_c t_b3 app]. rewrite app_nil_r, <- app_assoc.
  destruct (ir_p (snd m)); reflexivity.
Qed.

Lemma plain_val m : term_val (plain m) = m.
Proof. unfold plain, term_val; cbn [t_b1 t_mul t_l t_b2 t_c t_b3]. rewrite suffix_letter. destruct m as [m [l p]]; reflexivity. Qed.

Lemma parse_print_irreps x : x <> [] -> parse_irreps (print_irreps x) = Ok x.
Proof.
  intros H. pose proof (parse_irreps_ok (map plain x)) as P. rewrite !map_map in P.
  rewrite (map_ext _ _ plain_chars), (map_ext _ _ plain_val), map_id in P.
  destruct x as [|m x]; [congruence|]. apply P; [discriminate|].
  apply Forall_map. apply Forall_forall. intros; apply plain_ok.
Qed.

Lemma print_irreps_inj x y : print_irreps x = print_irreps y -> x = y.
Proof.
  destruct x as [|m x], y as [|n y]; [reflexivity| | |].
  - intros H. pose proof (parse_print_irreps (n :: y) ltac:(discriminate)) as P. rewrite <- H in P. vm_compute in P. discriminate.
  - intros H. pose proof (parse_print_irreps (m :: x) ltac:(discriminate)) as P. rewrite H in P. vm_compute in P. discriminate.
  - intros H. pose proof (parse_print_irreps (m :: x) ltac:(discriminate)) as P. rewrite H, parse_print_irreps in P by discriminate. congruence.
Qed.
