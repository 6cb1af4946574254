#!/bin/bash
# coqc with a time limit; a sentence that runs into it is reported like an error (for mutate.py)
out=$(mktemp)
timeout "${COQC_LIMIT:-400}" coqc -time "$@" > "$out"
rc=$?
if [ $rc = 124 ]; then
  for f in "$@"; do :; done   # the file is the last argument
  off=$(grep -a '^Chars' "$out" | tail -1 | sed 's/^Chars [0-9]* - \([0-9]*\) .*/\1/')
  line=$(head -c "${off:-0}" "$f" | wc -l)
  # the hanging sentence starts on the next non-empty text after that offset
  rest=$(tail -c +$(( ${off:-0} + 1 )) "$f" | head -c 400 | awk 'BEGIN{n=0} /[^ \t\r]/{print n; exit} {n++}')
  echo "File \"./$f\", line $(( line + 1 + ${rest:-0} )), characters 0-1:" >&2
  echo "Error: time limit" >&2
  rc=1
fi
grep -av '^Chars' "$out"
rm -f "$out"
exit $rc
