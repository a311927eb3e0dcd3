#!/bin/bash
# milestone: regenerate generated files, commit, vcheck
cd /verif && python3 tools/props.py && python3 tools/manifest.py && git add -A && git commit -qm "$1" ; vcheck 2>&1 | tail -40
