(** Model of pcs/src/univariate_kzg/{mod,srs}.rs, pcs/src/poly.rs,
    pcs/src/toeplitz.rs and the domain helpers of pcs/src/lib.rs.

    The pairing groups are vector spaces over the scalar field and the pairing is a
    bilinear map into a third one, written additively ([multi_pairing(..).is_one()]
    becomes "the sum is zero").  Affine/projective conversions and
    [into_bigint] are the identity.  [usize] overflow of powers of two is not modelled. *)
From Coq Require Import List Arith Bool Field.
From Verif Require Import Base Alg Poly.
Import ListNotations.

(** pcs/src/errors.rs:17-39, the variants used here. *)
Inductive pcs_error := InvalidParameters | UpstreamError | InvalidProver.

Definition pres A := outcome pcs_error A.

(** [v[k..]] *)
Definition slice_from {A} (l : list A) (k : nat) : pres (list A) :=
  if length l <? k then Panic else Ok (skipn k l).
(** [v[..=d]] *)
Definition slice_incl {A} (l : list A) (d : nat) : pres (list A) :=
  if length l <? d + 1 then Panic else Ok (firstn (d + 1) l).
(** [vec.resize(n, d)] *)
Definition resize {A} (n : nat) (d : A) (l : list A) : list A :=
  firstn n l ++ repeat d (n - length l).

(** [usize::is_power_of_two] and [next_power_of_two] ([0.next_power_of_two() == 1]). *)
Definition npot (n : nat) : nat := 2 ^ Nat.log2_up n.
Definition is_pow2 (n : nat) : bool := n =? npot n.

Section Kzg.
  Variable K : fld.
  Local Open Scope fld_scope.

  (** ** ark_poly (a dependency): dense univariate polynomials, low degree first *)

  (** [DensePolynomial::from_coefficients_vec]: drops the high-order zeros. *)
  Fixpoint pnorm (p : list K) : list K :=
    match p with
    | [] => []
    | c :: p' =>
        match pnorm p' with
        | [] => if feqb c 0 then [] else [c]
        | q => c :: q
        end
    end.
  Definition pis_zero (p : list K) : bool := forallb (fun c => feqb c 0) p.
  (** [DensePolynomial::degree]: asserts that the leading coefficient is not zero. *)
  Definition degree (p : list K) : pres nat :=
    if pis_zero p then Ok 0%nat
    else if feqb (last p 0) 0 then Panic
    else Ok (length p - 1)%nat.
  (** [&p / &d] for [d <> 0]: quotient of the polynomial division (quotient and
      remainder computed from the highest coefficient down). *)
  Fixpoint pdivmod (p d : list K) : list K * list K :=
    match p with
    | [] => ([], [])
    | c :: p' =>
        let (q, r) := pdivmod p' d in
        let r := c :: r in
        if length r =? length d then
          let a := last r 0 / last d 0 in
          (a :: q, removelast (psub r (pscale a d)))
        else (q, r)
    end.
  Definition pquo (p d : list K) : list K := pnorm (fst (pdivmod p d)).
  Definition pmulp (p q : list K) : list K := pnorm (pmul p q).
  Definition paddp (p q : list K) : list K := pnorm (padd p q).

  (** [Radix2EvaluationDomain]: size and generator.  [new] rounds up to a power of
      two and fails beyond the two-adicity; the generator of the subgroup of size
      [2^k] is the [2^(two_adicity - k)]-th power of the field's two-adic root. *)
  Record dom := mk_dom { dsize : nat; dgen : K }.
  Variable two_adicity : nat.
  Variable two_adic_root : K.
  Definition radix2_new (n : nat) : option dom :=
    let l := Nat.log2_up n in
    if (l <=? two_adicity)%nat then
      Some (mk_dom (2 ^ l) (fpow two_adic_root (2 ^ (two_adicity - l))))
    else None.
  Definition dom_element (d : dom) (i : nat) : K := fpow (dgen d) i.

  (** [fft] / [ifft] of a domain, by definition of the transform; coefficient
      vectors are padded (or cut) to the domain size.  [coset] is the coset offset. *)
  Section Fft.
    Variable V : vsp K.
    (** The sum of [x^j * l_j] for [j < n]. *)
    Fixpoint dft_at (x : K) (n : nat) (l : list V) : V :=
      match n with 0%nat => v0 | S n' => vadd (hd v0 l) (vmul x (dft_at x n' (tl l))) end.
    Definition fft_coset (coset : K) (d : dom) (l : list V) : list V :=
      map (fun i => dft_at (coset * fpow (dgen d) i) (dsize d) l) (seq 0 (dsize d)).
    Definition fft : dom -> list V -> list V := fft_coset 1.
    Definition ifft (d : dom) (l : list V) : list V :=
      let ninv := finv (fnat (dsize d)) in
      let ginv := finv (dgen d) in
      map (fun i => vmul ninv (dft_at (fpow ginv i) (dsize d) l)) (seq 0 (dsize d)).
  End Fft.

  (** ** pcs/src/poly.rs: polynomials with group coefficients *)
  Section GPoly.
    Variable V : vsp K.
    (** poly.rs:68-80 [from_coeff_vec] / [truncate_leading_zeros] (160-164) *)
    Fixpoint gnorm (p : list V) : list V :=
      match p with
      | [] => []
      | c :: p' =>
          match gnorm p' with
          | [] => if veqb c v0 then [] else [c]
          | q => c :: q
          end
      end.
    (** poly.rs:192-194 *)
    Definition gis_zero (p : list V) : bool := forallb (fun c => veqb c v0) p.
    (** poly.rs:95-102, on a truncated polynomial *)
    Definition gdegree (p : list V) : nat := if gis_zero p then 0 else (length p - 1)%nat.
    (** poly.rs:167-175 *)
    Definition horner (p : list V) (x : K) : V :=
      fold_right (fun c acc => vadd (vmul x acc) c) v0 p.
    (** poly.rs:105-112 *)
    Definition gevaluate (p : list V) (x : K) : V :=
      if gis_zero p then v0
      else if feqb x 0 then nth 0 p v0
      else horner p x.
    (** poly.rs:121-134; [unimplemented!] panics. *)
    Definition batch_evaluate (p : list V) (points : list K) : pres (list V) :=
      if (length points =? 0)%nat then Ok []
      else if (length points <? two_adicity ^ 2)%nat then Ok (map (gevaluate p) points)
      else Panic.
    (** poly.rs:139-155 *)
    Definition batch_evaluate_rou (p : list V) (d : dom) : pres (list V) :=
      if (dsize d <? length p)%nat then Err InvalidParameters
      else Ok (fft V d (resize (dsize d) v0 p)).
  End GPoly.

  (** ** pcs/src/toeplitz.rs *)

  (** toeplitz.rs:75-78; a circulant matrix (27-30) is its first column. *)
  Record toeplitz := mk_toeplitz { tcol : list K; trow : list K }.
  (** toeplitz.rs:82-98 *)
  Definition toeplitz_new (col row : list K) : pres toeplitz :=
    if (length col =? 0)%nat || negb (length col =? length row)%nat then Err InvalidParameters
    else if negb (feqb (nth 0 col 0) (nth 0 row 0)) then Err InvalidParameters
    else Ok (mk_toeplitz col row).
  Definition rotate_left1 {A} (l : list A) : list A :=
    match l with [] => [] | x :: l' => l' ++ [x] end.
  (** toeplitz.rs:104-112 *)
  Definition circulant_embedding (t : toeplitz) : list K :=
    tcol t ++ rev (rotate_left1 (trow t)).
  Section ToepMul.
    Variable V : vsp K.
    Definition hadamard (a : list K) (b : list V) : list V :=
      map (fun ab => vmul (fst ab) (snd ab)) (combine a b).
    (** toeplitz.rs:43-65; the [expect]s fail when the field has no domain of that size. *)
    Definition circulant_mul (col : list K) (m : list V) : pres (list V) :=
      if negb (is_pow2 (length m)) then Err InvalidParameters
      else if negb (length m =? length col)%nat then Err InvalidParameters
      else
        match radix2_new (length m) with
        | None => Panic
        | Some d => Ok (ifft V d (hadamard (fft (self_vsp K) d col) (fft V d m)))
        end.
    (** toeplitz.rs:118-140 *)
    Definition toeplitz_mul (t : toeplitz) (v : list V) : pres (list V) :=
      if negb (is_pow2 (length v)) then Err InvalidParameters
      else if negb (length v =? length (tcol t))%nat then Err InvalidParameters
      else
        let* res := circulant_mul (circulant_embedding t) (resize (2 * length v) v0 v) in
        Ok (firstn (length v) res).
  End ToepMul.

  (** ** pcs/src/univariate_kzg *)
  Variables V1 V2 VT : vsp K.
  Variable e : pairing K V1 V2 VT.

  (** srs.rs:19-30 *)
  Record srs := mk_srs { powers_of_g : list V1; sh : V2; sbeta_h : V2; powers_of_h : list V2 }.
  (** srs.rs:50-64.  The prover parameters (41-44) are the list of powers. *)
  Record vparam := mk_vparam {
    vg : V1; vh : V2; vbeta_h : V2; vpowers_of_h : list V2; vpowers_of_g : list V1 }.

  (** srs.rs:189-196 *)
  Fixpoint pow_loop (beta cur : K) (n : nat) : list K :=
    match n with 0%nat => [] | S n' => cur :: pow_loop beta (cur * beta) n' end.
  (** srs.rs:175-225 *)
  Definition gen_srs (beta : K) (g : V1) (h : V2) (prover_degree verifier_degree : nat) : srs :=
    let powers := 1 :: pow_loop beta beta (max prover_degree verifier_degree) in
    mk_srs (map (fun b => vmul b g) powers) h (vmul beta h)
      (map (fun b => vmul b h) (firstn (verifier_degree + 1) powers)).

  (** srs.rs:34-36 *)
  Definition max_degree (s : srs) : nat := length (powers_of_g s).
  (** srs.rs:71-75 *)
  Definition extract_prover_param (s : srs) (d : nat) : pres (list V1) := slice_incl (powers_of_g s) d.
  (** srs.rs:78-86 *)
  Definition extract_verifier_param (s : srs) (d : nat) : pres vparam :=
    let* g := index (powers_of_g s) 0 in
    let* ph := slice_incl (powers_of_h s) d in
    let* pg := slice_incl (powers_of_g s) d in
    Ok (mk_vparam g (sh s) (sbeta_h s) ph pg).
  (** srs.rs:92-127; formatting the error message computes [len() - 1], which
      underflows for an empty SRS. *)
  Definition trim_with_verifier_degree (s : srs) (d vd : nat) : pres (list V1 * vparam) :=
    if (length (powers_of_g s) <=? d)%nat then
      if (length (powers_of_g s) =? 0)%nat then Panic else Err InvalidParameters
    else if (length (powers_of_h s) <=? vd)%nat then
      if (length (powers_of_h s) =? 0)%nat then Panic else Err InvalidParameters
    else if (vd =? 0)%nat then Err InvalidParameters
    else
      let* pg := slice_incl (powers_of_g s) d in
      let* g := index (powers_of_g s) 0 in
      let* ph := slice_incl (powers_of_h s) vd in
      let* vpg := slice_incl (powers_of_g s) vd in
      Ok (pg, mk_vparam g (sh s) (sbeta_h s) ph vpg).
  (** srs.rs:133-138 *)
  Definition trim_srs (s : srs) (d : nat) : pres (list V1 * vparam) := trim_with_verifier_degree s d 1.
  (** mod.rs:75-86 *)
  Definition trim (s : srs) (d : nat) (num_vars : option nat) : pres (list V1 * vparam) :=
    match num_vars with Some _ => Err InvalidParameters | None => trim_srs s d end.
  (** lib.rs:394-406 *)
  Definition checked_fft_size (d : nat) : nat := if is_pow2 d then (2 * d)%nat else npot d.
  (** lib.rs:302-319: any error of [trim] is rewrapped. *)
  Definition trim_fft_size (s : srs) (d : nat) : pres (list V1 * vparam) := trim_srs s (checked_fft_size d).

  (** mod.rs:1044-1053: the number of low-order zero coefficients *)
  Fixpoint num_leading_zeros (p : list K) : nat :=
    match p with
    | [] => 0
    | c :: p' => if feqb c 0 then S (num_leading_zeros p') else 0
    end.
  (** The MSM of mod.rs:112-118, 160-164, 452-456, ...: [powers[lz..]] against the
      coefficients from the first non-zero one on; [msm_bigint] cuts to the shorter side. *)
  Definition msm_poly {V : vsp K} (powers : list V) (p : list K) : pres V :=
    let lz := num_leading_zeros p in
    let* bases := slice_from powers lz in
    Ok (msm bases (skipn lz p)).

  (** mod.rs:90-125 *)
  Definition commit (pp : list V1) (p : list K) : pres V1 :=
    let* d := degree p in
    if (length pp <? d)%nat then Err InvalidParameters else msm_poly pp p.
  (** mod.rs:127-141 *)
  Definition batch_commit (pp : list V1) (ps : list (list K)) : pres (list V1) := map_res (commit pp) ps.
  (** mod.rs:144-180 *)
  Definition open (pp : list V1) (p : list K) (z : K) : pres (V1 * K) :=
    let divisor := [- z; 1] in
    let* proof := msm_poly pp (pquo p divisor) in
    Ok (proof, peval p z).
  (** mod.rs:187-211 *)
  Definition batch_open (pp : list V1) (ps : list (list K)) (zs : list K) : pres (list V1 * list K) :=
    if negb (length ps =? length zs)%nat then Err InvalidParameters
    else
      let* l := map_res (fun pz => open pp (fst pz) (snd pz)) (combine ps zs) in
      Ok (map fst l, map snd l).
  (** mod.rs:214-237 *)
  Definition verify (vk : vparam) (comm : V1) (z v : K) (proof : V1) : bool :=
    veqb (vadd (e (vadd (vadd (vmul v (vg vk)) (vopp (vmul z proof))) (vopp comm)) (vh vk))
               (e proof (vbeta_h vk))) v0.

  (** mod.rs:244-298.  [rs i] is the [i]-th 128-bit number drawn from the generator;
      the loop state is (total_c, total_w, g_multiplier). *)
  Definition bv_step (rs : nat -> K) (st : V1 * V1 * K) (ic : nat * (V1 * K * K * V1)) : V1 * V1 * K :=
    let '(total_c, total_w, gm) := st in
    let '(i, (c, z, v, w)) := ic in
    let randomizer := match i with 0%nat => 1 | S i' => rs i' end in
    (vadd total_c (vmul randomizer (vadd (vmul z w) c)), vadd total_w (vmul randomizer w), gm + randomizer * v).
  Definition zip4 (cs : list V1) (zs vs : list K) (ws : list V1) : list (V1 * K * K * V1) :=
    combine (combine (combine cs zs) vs) ws.
  Definition batch_verify (vk : vparam) (rs : nat -> K) (cs : list V1) (zs vs : list K) (ws : list V1) : bool :=
    let claims := zip4 cs zs vs ws in
    let '(total_c, total_w, gm) :=
      fold_left (bv_step rs) (combine (seq 0 (length claims)) claims) (v0, v0, 0) in
    let total_c := vadd total_c (vopp (vmul gm (vg vk))) in
    veqb (vadd (e (vopp total_w) (vbeta_h vk)) (e total_c (vh vk))) v0.

  (** mod.rs:606-649 *)
  Definition compute_h_poly_in_fk23 (pp : list V1) (coeffs : list K) : pres (list V1) :=
    let padded_degree := npot (length coeffs - 1) in
    let padded := resize (padded_degree + 1) 0 coeffs in
    let toep_col := resize padded_degree 0 [last padded 0] in
    let toep_row := rev (skipn 1 padded) in
    let* m := toeplitz_new toep_col toep_row in
    let srs_vec := rev (firstn padded_degree pp) in
    let* h := toeplitz_mul V1 m srs_vec in
    Ok (gnorm V1 h).
  (** [VariableBaseMSM::msm]: an error (unwrapped below) when the lengths differ. *)
  Definition msm_unwrap (bs : list V1) (ss : list K) : pres V1 :=
    if (length bs =? length ss)%nat then Ok (msm bs ss) else Panic.
  (** mod.rs:572-603 *)
  Definition compute_h_poly_parallel (pp : list V1) (coeffs : list K) : pres (list V1) :=
    match coeffs with
    | [] => Ok []
    | _ =>
        let deg := (length coeffs - 1)%nat in
        let srs_vec := rev (firstn deg pp) in
        let matrix := map (fun i => firstn (deg - i) (rev coeffs)) (seq 0 deg) in
        let* h := map_res (fun cs => let* bs := slice_from srs_vec (deg - length cs) in msm_unwrap bs cs) matrix in
        Ok (gnorm V1 h)
    end.

  (** mod.rs:306-325 *)
  Definition multi_open (pp : list V1) (p : list K) (zs : list K) : pres (list V1 * list K) :=
    let* h := compute_h_poly_in_fk23 pp p in
    let* proofs := batch_evaluate V1 h zs in
    let* evals := batch_evaluate (self_vsp K) (gnorm (self_vsp K) p) zs in
    Ok (proofs, evals).

  (** mod.rs:328-376 (default build) *)
  Definition multi_open_rou_proofs (pp : list V1) (p : list K) (num_points : nat) (d : dom) : pres (list V1) :=
    let* h := compute_h_poly_parallel pp p in
    match radix2_new (gdegree V1 h + 1) with
    | None => Err InvalidParameters
    | Some small =>
        let parallel_factor := (dsize d / dsize small)%nat in
        let offsets := map (fun i => fpow (dgen d) i) (seq 0 (max 1 parallel_factor)) in
        let proofs := map (fun o => fft_coset V1 o small h) offsets in
        let res := flat_map (fun j => map (fun pr => nth j pr v0) proofs) (seq 0 (dsize small)) in
        Ok (firstn num_points res)
    end.
  (** mod.rs:378-392 (feature "seq-fk-23") *)
  Definition multi_open_rou_proofs_seq (pp : list V1) (p : list K) (num_points : nat) (d : dom) : pres (list V1) :=
    let* h := compute_h_poly_in_fk23 pp p in
    let* l := batch_evaluate_rou V1 h d in
    Ok (firstn num_points l).
  (** mod.rs:396-407 *)
  Definition multi_open_rou_evals (p : list K) (num_points : nat) (d : dom) : pres (list K) :=
    let* l := batch_evaluate_rou (self_vsp K) (gnorm (self_vsp K) p) d in
    Ok (firstn num_points l).
  (** lib.rs:324-339 *)
  Definition multi_open_rou_eval_domain (deg num_points : nat) : pres dom :=
    match radix2_new (max (checked_fft_size deg + 1) num_points) with
    | Some d => Ok d
    | None => Err UpstreamError
    end.
  (** lib.rs:345-355 *)
  Definition multi_open_rou (pp : list V1) (p : list K) (num_points : nat) (d : dom) : pres (list V1 * list K) :=
    let* evals := multi_open_rou_evals p num_points d in
    let* proofs := multi_open_rou_proofs pp p num_points d in
    Ok (proofs, evals).

  (** mod.rs:441-446, 515-523: [prod_i (X - z_i)] *)
  Definition vanish_poly (zs : list K) : list K :=
    match zs with
    | [] => []
    | z :: zs' => fold_left (fun acc z => pmulp acc [- z; 1]) zs' [- z; 1]
    end.
  (** mod.rs:416-468 *)
  Definition multi_point_open (pp : list V1) (p : list K) (zs : list K) : pres (V1 * list K) :=
    if (length zs =? 0)%nat then Err InvalidParameters
    else
      let evals := map (peval p) zs in
      let* proof := msm_poly pp (pquo p (vanish_poly zs)) in
      Ok (proof, evals).
  (** mod.rs:1070-1080; [inverse().unwrap()] panics on a repeated point. *)
  Definition lagrange_step (zs : list K) (i : nat) (acc : pres (list K)) (j : nat) : pres (list K) :=
    let* res := acc in
    if (j =? i)%nat then Ok res
    else
      let d := nth i zs 0 - nth j zs 0 in
      if feqb d 0 then Panic
      else Ok (pmulp res (pnorm [- nth j zs 0 * finv d; finv d])).
  Definition lagrange_poly (zs : list K) (i : nat) (value : K) : pres (list K) :=
    fold_left (lagrange_step zs i) (seq 0 (length zs)) (Ok (pnorm [value])).
  (** mod.rs:501-505 *)
  Definition evals_poly (zs vs : list K) : pres (list K) :=
    fold_left (fun acc iv => let* a := acc in let* l := lagrange_poly zs (fst iv) (snd iv) in Ok (paddp a l))
      (combine (seq 0 (length vs)) vs) (Ok []).
  (** mod.rs:474-562 *)
  Definition multi_point_verify (vk : vparam) (comm : V1) (zs vs : list K) (proof : V1) : pres bool :=
    if (length zs =? 0)%nat then Err InvalidParameters
    else if negb (length zs =? length vs)%nat then Err InvalidParameters
    else if (length (vpowers_of_h vk) <? length zs + 1)%nat then Err InvalidParameters
    else
      let* ip := evals_poly zs vs in
      let* evals_cm := msm_poly (vpowers_of_g vk) ip in
      let* vanish_cm := msm_poly (vpowers_of_h vk) (vanish_poly zs) in
      Ok (veqb (vadd (e (vadd evals_cm (vopp comm)) (vh vk)) (e proof vanish_cm)) v0).
End Kzg.

Arguments dsize {K}. Arguments dgen {K}.
Arguments powers_of_g {K V1 V2}. Arguments powers_of_h {K V1 V2}. Arguments sh {K V1 V2}. Arguments sbeta_h {K V1 V2}.
Arguments vg {K V1 V2}. Arguments vh {K V1 V2}. Arguments vbeta_h {K V1 V2}.
Arguments vpowers_of_h {K V1 V2}. Arguments vpowers_of_g {K V1 V2}.
