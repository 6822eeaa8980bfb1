(** Printed decision rules: model of pynare/io/summary.py:378-679.

    Simplification: a printed line is the list of its numbers, without rounding and
    padding. *)
From Verif Require Import Base Nd Indexing.

Section Summary.
  Variable F : Type.
  Variable O : rops F.
  (** Is a number zero?  [np.log10] of it is then minus infinity. *)
  Variable is_zero : F -> bool.

  Inductive line := Header (names : list string) | Values (xs : list F) | Plus.
  Definition trow := (string * line)%type.

  (** [l[idx]] *)
  Definition take {A} (l : list A) (idx : list nat) : res (list A) :=
    mapM (fun i => match nth_error l i with Some a => Ok a | None => Err IndexErr end) idx.
  (** [l[mask]] with a mask of booleans *)
  Definition take_mask {A} (l : list A) (mask : list bool) : res (list A) :=
    if List.length mask =? List.length l then Ok (select mask l) else Err IndexErr.

  (** A matrix as its number of rows and the list of its columns; arrays of fewer
      dimensions through [ensure_2darray]. *)
  Definition columns (a : nd F) : nat * list (list F) :=
    match ensure2 F a with
    | M2 r c f => (r, map (fun j => map (fun i => f i j) (seq 0 r)) (seq 0 c))
    | _ => (0, [])
    end.
  Definition hstack (ms : list (nat * list (list F))) : res (nat * list (list F)) :=
    match ms with
    | [] => Err ValueErr
    | (r, _) :: _ => if forallb (fun m => fst m =? r) ms then Ok (r, concat (map snd ms)) else Err ValueErr
    end.

  (** summary.py:630-679 with [use_labels]; [rows] are the rows of [arr].  [below] is
      the comparison with the threshold: the mask has one entry per row and selects
      columns.  The largest logarithm of no numbers is a ValueError, [int] of minus
      infinity an OverflowError. *)
  Definition summarize_array (rows : list (list F)) (labels : list string) (below : option (F -> bool)) : res (list line) :=
    let width := match rows with r :: _ => List.length r | [] => 0 end in
    let pidx := match below with
                | Some b => map (fun r => negb (forallb b r)) rows
                | None => repeat true width
                end in
    do rows' <- mapM (fun r => take_mask r pidx) rows;
    do labels' <- take_mask labels pidx;
    if List.length (concat rows') =? 0 then Err ValueErr
    else if forallb is_zero (concat rows') then Err OverflowErr
    else Ok (Header labels' :: map Values rows').

  (** summary.py:404, 535: the columns of the states in declaration order *)
  Definition states_dc (x : indexes) : list nat :=
    argsort (filter (fun v => existsb (Nat.eqb v) (members is_state x)) (dr_order x)).

  (** summary.py:424, 553 *)
  Definition lagged (s : string) : string := (s ++ "(-1)")%string.

  (** summary.py:389-420 *)
  Definition first_arrays (x : indexes) (endog : list string) (ss : list F) (gy gu : nd F) (below : option (F -> bool)) :
      res (list line * list line) :=
    do ss_dr <- take ss (dr_order x);
    let ss2 := columns (V1 (List.length ss_dr) (fun i => nth i ss_dr (r0 O))) in
    do gy2 <- take (snd (columns gy)) (states_dc x);
    do arr <- hstack [ss2; (fst (columns gy), gy2); columns gu];
    do arr_dc <- mapM (fun r => take r (dc_order x)) (snd arr);
    do strs <- summarize_array arr_dc endog below;
    let n_gy := List.length gy2 in
    let n_gu := List.length (snd (columns gu)) in
    (* strs[-n_gu:] is everything for n_gu = 0 *)
    let low := if n_gu =? 0 then strs else skipn (List.length strs - n_gu) strs in
    Ok (firstn (n_gy + 2) strs, low).

  (** summary.py:422-431 *)
  Definition first_labels (x : indexes) (endog stoch : list string) : res (list string) :=
    do state <- take endog (members is_state x);
    Ok ([""; "steady"]%string ++ map lagged state ++ [""]%string ++ stoch).

  (** summary.py:433-452 *)
  Definition first_summary (x : indexes) (endog stoch : list string) (ss : list F) (gy gu : nd F)
      (below : option (F -> bool)) : res (list trow) :=
    do p <- first_arrays x endog ss gy gu below;
    do labels <- first_labels x endog stoch;
    Ok (combine labels (fst p ++ [Plus] ++ snd p)).

  (** ** Second order *)

  Definition repeat_each (n : nat) (l : list nat) : list nat := flat_map (fun a => repeat a n) l.
  Definition tile (n : nat) (l : list nat) : list nat := concat (repeat l n).
  Definition indices (n : nat) (a b : list nat) : list nat := map (fun p => n * fst p + snd p) (combine a b).

  (** summary.py:518-548 *)
  Definition second_arrays (x : indexes) (ss : list F) (gy gu ghxx ghxu ghuu del2 : nd F) :
      res (list (nat * list (list F))) :=
    do ss_dr <- take ss (dr_order x);
    let ss2 := columns (V1 (List.length ss_dr) (fun i => nth i ss_dr (r0 O))) in
    let st := states_dc x in
    let ns := List.length st in
    let k := n_exog x in
    do gy2 <- take (snd (columns gy)) st;
    do gyx2 <- take (snd (columns ghxx)) (indices ns (repeat_each ns st) (tile ns st));
    do gyu2 <- take (snd (columns ghxu)) (indices ns (repeat_each ns (seq 0 k)) (tile k (seq 0 ns)));
    do g <- hstack [ss2; (fst (columns gy), gy2)];
    Ok [g; columns gu; (fst (columns ghxx), gyx2); (fst (columns ghxu), gyu2); columns ghuu; columns del2].

  (** summary.py:551-564 *)
  Definition pair_label (p : string * string) : string := (fst p ++ ", " ++ snd p)%string.
  Definition second_labels (x : indexes) (endog stoch : list string) : res (list string) :=
    do names <- take endog (members is_state x);
    let state := map lagged names in
    Ok (["steady"]%string ++ state ++ stoch ++ map pair_label (list_prod state state) ++
        map pair_label (list_prod state stoch) ++ map pair_label (list_prod stoch stoch) ++ ["del2"]%string).

  (** summary.py:483-489: the mask of the rows that are printed *)
  Definition set_ends (l : list bool) : list bool :=
    match l with
    | [] => []
    | [_] => [true]
    | _ :: l' => true :: removelast l' ++ [true]
    end.
  Definition threshold_locs (rows : list (list F)) (below : F -> bool) : list bool :=
    set_ends (map (fun r => negb (forallb below r)) rows).

  (** summary.py:503-514: the block of each row *)
  Fixpoint blocks (i : nat) (sizes : list nat) : list nat :=
    match sizes with [] => [] | n :: sizes' => repeat i n ++ blocks (S i) sizes' end.

  (** summary.py:600-626 with 576-597: the rows of each block, and a plus sign after every
      block but the last that has rows. *)
  Definition second_summary (x : indexes) (endog stoch : list string) (ss : list F)
      (gy gu ghxx ghxu ghuu del2 : nd F) (below : F -> bool) : res (list trow) :=
    do ms <- second_arrays x ss gy gu ghxx ghxu ghuu del2;
    do arr <- hstack ms;
    do arr_dc <- mapM (fun r => take r (dc_order x)) (snd arr);
    let tloc := threshold_locs arr_dc below in
    do strs <- summarize_array (select tloc arr_dc) endog None;
    let bl := select tloc (blocks 0 (map (fun m => List.length (snd m)) ms)) in
    do all_labels <- second_labels x endog stoch;
    do labels <- take_mask all_labels tloc;
    let block i := map snd (filter (fun p => fst p =? i) (combine bl (combine labels (tl strs)))) in
    Ok ((""%string, hd Plus strs) ::
        concat (map (fun i => match block i with
                              | [] => []
                              | rows => rows ++ (if i <? 5 then [(""%string, Plus)] else [])
                              end) (seq 0 6))).
End Summary.
Arguments Header {F}. Arguments Values {F}. Arguments Plus {F}.
