(** Model of pcs/src/multilinear_kzg/{mod,srs,util,batching}.rs.

    A multilinear polynomial is its list of [2^num_vars] values on the hypercube,
    the first variable being the lowest bit of the index (ark_poly's
    [DenseMultilinearExtension]). *)
From Coq Require Import List Arith Bool.
From Verif Require Import Base Alg Poly KzgModel.
Import ListNotations.

Section Ml.
  Variable K : fld.
  Local Open Scope fld_scope.

  (** ark_poly: [DenseMultilinearExtension] *)
  Record mle := mk_mle { mnv : nat; mevals : list K }.
  (** [from_evaluations_vec] asserts the length. *)
  Definition mle_new (nv : nat) (l : list K) : pres mle :=
    if (length l =? 2 ^ nv)%nat then Ok (mk_mle nv l) else Panic.
  (** One round of [fix_variables]: the lowest variable is set to [r].  (Also the
      loop of mod.rs:330-337 computing [r].) *)
  Fixpoint fold1 (r : K) (l : list K) : list K :=
    match l with
    | a :: b :: l' => (a + r * (b - a)) :: fold1 r l'
    | _ => []
    end.
  (** The [q] of mod.rs:330-337. *)
  Fixpoint diff1 (l : list K) : list K :=
    match l with
    | a :: b :: l' => (b - a) :: diff1 l'
    | _ => []
    end.
  Definition fix_vars (l : list K) (pt : list K) : list K := fold_left (fun f r => fold1 r f) pt l.
  (** [evaluate]: panics unless the point has one coordinate per variable. *)
  Definition mle_evaluate (m : mle) (pt : list K) : pres K :=
    if (length pt =? mnv m)%nat then index (fix_vars (mevals m) pt) 0 else Panic.

  Variables V1 V2 VT : vsp K.
  Variable e : pairing K V1 V2 VT.

  (** srs.rs:35-63, 26-32 *)
  Record mprover := mk_mprover { mp_num_vars : nat; mp_powers : list (list V1); mp_g : V1; mp_h : V2 }.
  Record mverifier := mk_mverifier { mv_num_vars : nat; mv_g : V1; mv_h : V2; mv_mask : list V2 }.
  Record msrs := mk_msrs { ms_pp : mprover; ms_mask : list V2 }.

  (** srs.rs:287-290, util.rs:21-35: one factor of the equality polynomial *)
  Definition eq_factor (t x : K) : K := t * x + t * x - x - t + 1.
  (** util.rs:20-35 *)
  Definition eq_eval (xs ys : list K) : pres K :=
    if (length xs =? length ys)%nat then
      Ok (fold_left (fun acc xy => acc * eq_factor (fst xy) (snd xy)) (combine xs ys) 1)
    else Err InvalidParameters.
  (** srs.rs:277-297 *)
  Definition eq_extension (t : list K) : list (list K) :=
    let dim := length t in
    map (fun i => map (fun x => eq_factor (nth i t 0) (if Nat.testbit x i then 1 else 0)) (seq 0 (2 ^ dim))) (seq 0 dim).
  (** srs.rs:262-275 *)
  Definition remove_dummy_variable (poly : list K) (pad : nat) : pres (list K) :=
    if (pad =? 0)%nat then Ok poly
    else if negb (is_pow2 (length poly)) then Err InvalidParameters
    else
      let nv := (Nat.log2_up (length poly) - pad)%nat in
      map_res (fun x => index poly (x * 2 ^ pad)) (seq 0 (2 ^ nv)).
  Definition zip_mul (a b : list K) : list K := map (fun xy => fst xy * snd xy) (combine a b).
  (** srs.rs:321-331: [eqs] is the linked list from its back, [i] the loop counter *)
  Fixpoint eq_loop (eqs : list (list K)) (i : nat) (base : list K) (arr : list (list K)) : pres (list (list K)) :=
    let* a := remove_dummy_variable base i in
    let arr := a :: arr in
    match i with
    | 0%nat => Ok arr
    | S i' => match eqs with [] => Panic | mul :: eqs' => eq_loop eqs' i' (zip_mul base mul) arr end
    end.
  (** srs.rs:333-356, one table; the products with [g] are made table by table rather
      than over the concatenation of all tables. *)
  Definition srs_table (g : V1) (t : list K) (i : nat) (eq : list K) : pres (list V1) :=
    let nv := length t in
    let* sc := map_res (fun x => index eq x) (seq 0 (2 ^ (nv - i))) in
    let tbl := map (fun s => vmul s g) sc in
    let* t0 := eq_eval (repeat 0 (nv - i)) (skipn i t) in
    let* first := index tbl 0 in
    if veqb (vmul t0 g) first then Ok tbl else Panic.
  (** srs.rs:299-375; [t], [g], [h] are the random draws. *)
  Definition gen_ml_srs (t : list K) (g : V1) (h : V2) : pres msrs :=
    let nv := length t in
    if (nv =? 0)%nat then Err InvalidParameters
    else
      match rev (eq_extension t) with
      | [] => Panic
      | base :: eqs =>
          let* arr := eq_loop eqs (nv - 1) base [] in
          let* tbls := map_res (fun ie => srs_table g t (fst ie) (snd ie)) (combine (seq 0 nv) arr) in
          Ok (mk_msrs (mk_mprover nv (tbls ++ [[g]]) g h) (map (fun ti => vmul ti h) t))
      end.

  (** srs.rs:94-118 (68-91 compute the same two parts) *)
  Definition ml_trim (s : msrs) (nv : nat) : pres (mprover * mverifier) :=
    if (mp_num_vars (ms_pp s) <? nv)%nat then Err InvalidParameters
    else
      let to_reduce := (mp_num_vars (ms_pp s) - nv)%nat in
      let* pw := slice_from (mp_powers (ms_pp s)) to_reduce in
      let* mask := slice_from (ms_mask s) to_reduce in
      Ok (mk_mprover nv pw (mp_g (ms_pp s)) (mp_h (ms_pp s)), mk_mverifier nv (mp_g (ms_pp s)) (mp_h (ms_pp s)) mask).

  (** mod.rs:123-152 *)
  Definition ml_commit (pp : mprover) (p : mle) : pres V1 :=
    if (mp_num_vars pp <? mnv p)%nat then Err InvalidParameters
    else
      let* tbl := index (mp_powers pp) (mp_num_vars pp - mnv p) in
      Ok (msm tbl (mevals p)).
  (** mod.rs:321-352 *)
  Fixpoint open_rounds (pt : list K) (gs : list (list V1)) (f : list K) : list V1 :=
    match pt, gs with
    | z :: pt', gi :: gs' => msm gi (diff1 f) :: open_rounds pt' gs' (fold1 z f)
    | _, _ => []
    end.
  (** mod.rs:294-358 *)
  Definition ml_open (pp : mprover) (p : mle) (pt : list K) : pres (list V1 * K) :=
    if (mp_num_vars pp <? mnv p)%nat then Err InvalidParameters
    else if negb (mnv p =? length pt)%nat then Err InvalidParameters
    else
      let ignored := (mp_num_vars pp - mnv p + 1)%nat in
      if (length (mp_powers pp) <? ignored + mnv p)%nat then Panic
      else
        let proofs := open_rounds pt (firstn (mnv p) (skipn ignored (mp_powers pp))) (mevals p) in
        let* v := mle_evaluate p pt in
        Ok (proofs, v).
  (** mod.rs:367-418.  [multi_pairing] zips its arguments and panics when they have
      different lengths. *)
  Definition ml_verify (vk : mverifier) (comm : V1) (pt : list K) (v : K) (proofs : list V1) : pres bool :=
    let n := length pt in
    if (mv_num_vars vk <? n)%nat then Err InvalidParameters
    else
      let ignored := (mv_num_vars vk - n)%nat in
      let* hv := map_res (fun iz => let* m := index (mv_mask vk) (ignored + fst iz) in
                                    Ok (vadd m (vopp (vmul (snd iz) (mv_h vk))))) (combine (seq 0 n) pt) in
      let ls := proofs ++ [vadd (vmul v (mv_g vk)) (vopp comm)] in
      let rs := hv ++ [mv_h vk] in
      if (length ls =? length rs)%nat then
        Ok (veqb (vsum (map (fun ab => e (fst ab) (snd ab)) (combine ls rs))) v0)
      else Panic.

  (** ** util.rs *)
  Variables (two_adicity : nat) (two_adic_root : K).
  Notation radix2 := (radix2_new K two_adicity two_adic_root).

  (** util.rs:37-46 *)
  Definition bit_decompose (x n : nat) : list bool := map (Nat.testbit x) (seq 0 n).
  (** util.rs:61-75 *)
  Definition get_uni_domain (n : nat) : pres (dom K) :=
    match radix2 n with Some d => Ok d | None => Err InvalidParameters end.
  (** [Evaluations::from_vec_and_domain(v, d).interpolate()]: a shorter vector is
      padded with zeros by the inverse transform. *)
  Definition interpolate (d : dom K) (v : list K) : list K := pnorm K (ifft K (self_vsp K) d v).
  (** util.rs:125-130; [log2] rounds up *)
  Definition get_batched_nv (nv len : nat) : nat := (nv + Nat.log2_up len)%nat.
  (** util.rs:132-155 *)
  Definition merge_polynomials (ps : list mle) : pres mle :=
    let* p0 := index ps 0 in
    if negb (forallb (fun p => (mnv p0 =? mnv p)%nat) ps) then Err InvalidParameters
    else
      let nv := get_batched_nv (mnv p0) (length ps) in
      let sc := flat_map mevals ps in
      if (2 ^ nv <? length sc)%nat then Panic else mle_new nv (sc ++ repeat 0 (2 ^ nv - length sc)).
  (** util.rs:157-189 *)
  Definition build_l (num_var : nat) (points : list (list K)) (d : dom K) : pres (list (list K)) :=
    let prefix_len := Nat.log2_up (length points) in
    let prefix := map (fun i => interpolate d
        (map (fun x => if nth (prefix_len - i - 1) (bit_decompose x prefix_len) false then 1 else 0) (seq 0 (length points))))
      (seq 0 prefix_len) in
    let* coords := map_res (fun i =>
        let* ev := map_res (fun pt => index pt i) points in
        if (dsize d <? length ev)%nat then Panic
        else Ok (interpolate d (ev ++ repeat 0 (dsize d - length ev)))) (seq 0 num_var) in
    Ok (prefix ++ coords).
  (** util.rs:77-123; [degree] is that of ark_poly. *)
  Definition compute_w_circ_l (w : mle) (l : list (list K)) : pres (list K) :=
    if negb (mnv w =? length l)%nat then Err InvalidParameters
    else
      let* l0 := index l 0 in
      let* d0 := degree K l0 in
      let uni_degree := ((length l - mnv w + Nat.log2_up (length l) + 2) * d0)%nat in
      match radix2 uni_degree with
      | None => Err InvalidParameters
      | Some d =>
          let* evs := map_res (fun i => mle_evaluate w (map (fun p => peval p (dom_element K d i)) (rev l))) (seq 0 (dsize d)) in
          Ok (interpolate d evs)
      end.

  (** ** batching.rs *)

  (** The transcript (batching.rs:107-116, 233-244) as a function of what is appended. *)
  Variable challenge : V1 -> list (list K) -> V1 -> K.

  (** mod.rs:154-181 *)
  Definition ml_batch_commit (pp : mprover) (ps : list mle) : pres V1 :=
    let* m := merge_polynomials ps in
    let* tbl := index (mp_powers pp) 0 in
    Ok (msm tbl (mevals m)).

  (** mod.rs:63-73 *)
  Record batch_proof := mk_batch_proof { bp_proof : list V1; bp_q_commit : V1; bp_q_opens : list V1 }.

  (** batching.rs:57-172 *)
  Definition batch_open_internal (upp : list V1) (mpp : mprover) (ps : list mle) (bc : V1) (points : list (list K))
    : pres (batch_proof * list K) :=
    let n := length points in
    if (n =? 0)%nat then Err InvalidParameters
    else if negb (n =? length ps)%nat then Err InvalidParameters
    else
      let* p0 := index ps 0 in
      let nv := mnv p0 in
      if negb (forallb (fun p => (mnv p =? nv)%nat) (skipn 1 ps)) then Err InvalidParameters
      else if negb (forallb (fun pt => (length pt =? nv)%nat) points) then Err InvalidParameters
      else
        let* d := get_uni_domain n in
        let* us := build_l nv points d in
        let* w := merge_polynomials ps in
        let* q := compute_w_circ_l w us in
        let* qc := commit K V1 upp q in
        let r := challenge bc points qc in
        let* opens := map_res (fun i =>
            let* wv := open K V1 upp q (dom_element K d i) in
            let* ev := mle_evaluate w (map (fun p => peval p (dom_element K d i)) (rev us)) in
            if feqb ev (snd wv) then Ok wv else Err InvalidProver) (seq 0 n) in
        let* last := open K V1 upp q r in
        let* mo := ml_open mpp w (map (fun p => peval p r) (rev us)) in
        if feqb (snd mo) (snd last) then
          Ok (mk_batch_proof (fst mo) qc (map fst opens ++ [fst last]), map snd opens ++ [snd last])
        else Err InvalidProver.

  (** batching.rs:190-299 *)
  Definition batch_verify_internal (uvk : vparam K V1 V2) (mvk : mverifier) (bc : V1) (points : list (list K))
    (values : list K) (bp : batch_proof) : pres bool :=
    let n := length points in
    if (n =? 0)%nat then Err InvalidParameters
    else if negb (n + 1 =? length (bp_q_opens bp))%nat then Err InvalidParameters
    else if negb (n + 1 =? length values)%nat then Err InvalidParameters
    else
      let* pt0 := index points 0 in
      let nv := length pt0 in
      if negb (forallb (fun pt => (length pt =? nv)%nat) (skipn 1 points)) then Err InvalidParameters
      else
        let* d := get_uni_domain n in
        let r := challenge bc points (bp_q_commit bp) in
        if negb (forallb (fun i => verify K V1 V2 VT e uvk (bp_q_commit bp) (dom_element K d i) (nth i values 0) (nth i (bp_q_opens bp) v0))
                  (seq 0 n)) then Ok false
        else if negb (verify K V1 V2 VT e uvk (bp_q_commit bp) r (nth n values 0) (nth n (bp_q_opens bp) v0)) then Ok false
        else
          let* us := build_l nv points d in
          ml_verify mvk bc (map (fun p => peval p r) (rev us)) (nth n values 0) (bp_proof bp).
End Ml.

Arguments mk_mle {K}. Arguments mnv {K}. Arguments mevals {K}.
Arguments mp_num_vars {K V1 V2}. Arguments mp_powers {K V1 V2}. Arguments mp_g {K V1 V2}. Arguments mp_h {K V1 V2}.
Arguments mv_num_vars {K V1 V2}. Arguments mv_g {K V1 V2}. Arguments mv_h {K V1 V2}. Arguments mv_mask {K V1 V2}.
Arguments bp_proof {K V1}. Arguments bp_q_commit {K V1}. Arguments bp_q_opens {K V1}.
