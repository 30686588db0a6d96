(** Model of util.PattenMatch (util/util.go:25-122). *)
From Verif Require Export Bytes.

(** Result of matching: a boolean, an index-out-of-range panic, or fuel exhaustion
    (shown impossible in GlobProofs.v). *)
Inductive gres := GOk (b : bool) | GPanic | GFuel.

Definition is_star (c : ascii) : bool := (code c =? 42)%N.

(** [for i := range pattern { if pattern[i] != '*' {return false} }] (util.go:33-37).
    Ranging over a string visits rune starts; the first non-'*' byte, if any, is one. *)
Definition all_stars (p : bytes) : bool := forallb is_star p.

(** [for patPos < patLen && pattern[patPos] == '*' { patPos++ }] *)
Fixpoint skip_stars (p : bytes) : bytes :=
  match p with c :: r => if is_star c then skip_stars r else p | [] => [] end.

(** The loop over a bracket expression (util.go:76-94).  [prev] is pattern[patPos-1],
    [p] the rest of the pattern from patPos, [c] is src[srcPos].
    Result: [None] panic (pattern[patPos+1] out of range);
    [Some (close, match, rest)] with [rest] starting at the closing ']' (or empty). *)
Fixpoint class_loop (fuel : nat) (prev : ascii) (p : bytes) (c : ascii) (m : bool)
  : option (bool * bool * bytes) :=
  match fuel with
  | O => None
  | S f =>
      match p with
      | [] => Some (false, m, [])
      | x :: r =>
          if (code x =? 93)%N then Some (true, m, p)              (* ']' *)
          else if (code x =? 45)%N then                             (* '-' *)
            match r with
            | [] => None                                            (* pattern[patPos+1] panics *)
            | e :: r' =>
                let m' := if ((code prev <=? code c) && (code c <=? code e))%N then true else m in
                class_loop f e r' c m'
            end
          else
            let m' := if (code x =? code c)%N then true else m in
            class_loop f x r c m'
      end
  end.

(** The main loop, on the suffixes pattern[patPos:] and src[srcPos:].  [go] is the
    recursive call PattenMatch on strictly shorter patterns. *)
Section Loop.
Variable go : bytes -> bytes -> gres.

(** [for srcPos < srcLen {...}] of the '*' case (util.go:51-64): [q :: p'] is the pattern after the stars. *)
Fixpoint star_loop (q : ascii) (p' : bytes) (s : bytes) : gres :=
  match s with
  | [] => GOk false                       (* loop ends: return false; or srcPos == srcLen with patPos < patLen *)
  | c :: s' =>
      if (code c =? code q)%N then
        match go p' s' with
        | GOk true => GOk true
        | GOk false => star_loop q p' s'
        | e => e
        end
      else star_loop q p' s'
  end.
End Loop.

(** PattenMatch, on suffixes.  The entry checks (util.go:28-38) and the exit test
    (util.go:113-121) both amount to: with the source exhausted, the rest of the
    pattern must consist of stars; with the pattern exhausted, so must be the source. *)
Fixpoint patten_match (fuel : nat) (p s : bytes) : gres :=
  match fuel with
  | O => GFuel
  | S f =>
      match p with
      | [] => GOk (match s with [] => true | _ => false end)
      | x :: p' =>
          match s with
          | [] => GOk (all_stars p)
          | c :: s' =>
              if (code x =? 63)%N then patten_match f p' s'                  (* '?' :43 *)
              else if is_star x then                                          (* '*' :45 *)
                match skip_stars p' with
                | [] => GOk true
                | q :: p'' => star_loop (patten_match f) q p'' s
                end
              else if (code x =? 91)%N then                                   (* '[' :65 *)
                match p' with
                | [] => GOk false
                | y :: r =>
                    let neg := (code y =? 94)%N in
                    let '(prev, body) := if neg then (y, r) else (x, p') in
                    match class_loop (S (length body)) prev body c false with
                    | None => GPanic
                    | Some (false, _, _) => GOk false
                    | Some (true, m, rest) =>
                        if (if neg then negb m else m)
                        then patten_match f (drop 1 rest) s'
                        else GOk false
                    end
                end
              else if (code x =? code c)%N then patten_match f p' s'           (* default :105 *)
              else GOk false
          end
      end
  end.

Definition glob (p s : bytes) : gres := patten_match (S (length p)) p s.
