#!/bin/sh
# show.sh FILE N: goals after the first N lines of FILE
(sed -n "1,$2p" $1; echo 'Show.') > /tmp/t.v; timeout 100 coqtop -w none -R . Verif -l /tmp/t.v < /dev/null 2>&1 | tail -${3:-40}
